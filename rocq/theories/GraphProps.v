(** C61: the picture of the dependencies printed by [--printdag]. *)
From Coq Require FinFun.
From Verif Require Import Base PatchesModel TextModel TextSpec TextProofs InstrModel InstrSpec InstrProofs GatesModel GatesSpec GatesProofs GatesProps LoweringModel LoweringProofs
  OutputModel DagModel DagSpec DagProofs DagSim DagProps GraphModel GraphSpec.

Open Scope nat_scope.

Section Shape.
  Variable A : Type.
  Variable can : A -> A -> outcome bool.
  Definition upto (n : nat) : list N := map N.of_nat (seq 0 n).
  Lemma upto_S n : upto (S n) = upto n ++ [N.of_nat n].
  Proof. unfold upto. rewrite seq_S, map_app. reflexivity. Qed.
  Lemma upto_In n x : In x (upto n) <-> (x < N.of_nat n)%N.
  Proof.
    unfold upto. rewrite in_map_iff. split.
    - intros (k & <- & H). apply in_seq in H. lia.
    - intros H. exists (N.to_nat x). split; [lia|]. apply in_seq. lia.
  Qed.
  Lemma keys_add_edge g a b g' : add_edge g a b = Ok g' -> has (g_out g) a = true -> has (g_out g) b = true ->
    keys (g_out g') = keys (g_out g).
  Proof.
    unfold add_edge. intros H Ha Hb. unfold add_node at 1 in H. unfold add_node in H. rewrite Hb, Ha in H.
    apply bind_ok in H. destruct H as (o & _ & H). apply bind_ok in H. destruct H as (i & _ & H). injection H as <-. cbn [g_out]. apply keys_aset.
  Qed.
  (** Nodes in the order of the program, nothing else recorded. *)
  Record tidy (prog : list A) (d : dag A) : Prop := {
    t_next : d_next d = N.of_nat (length prog);
    t_keys : keys (g_out (d_graph d)) = upto (length prog);
    t_ins : d_ins d = combine (upto (length prog)) prog;
    t_deps : d_deps d = [];
    t_heads : d_pheads d = []
  }.
  Lemma upto_length n : length (upto n) = n.
  Proof. unfold upto. now rewrite map_length, seq_length. Qed.
  Lemma keys_combine (l : list N) (xs : list A) : length l = length xs -> keys (combine l xs) = l.
  Proof. revert xs. induction l as [|x l IH]; intros [|y xs] H; cbn in *; try discriminate; [reflexivity|]. f_equal. apply IH. lia. Qed.
  Lemma combine_snoc (l : list N) (xs : list A) a x : length l = length xs -> combine (l ++ [a]) (xs ++ [x]) = combine l xs ++ [(a, x)].
  Proof. revert xs. induction l as [|b l IH]; intros [|y xs] H; cbn in *; try discriminate; [reflexivity|]. f_equal. apply IH. lia. Qed.
  Lemma push_tidy prog d i d' : tidy prog d -> push can d i = Ok d' -> tidy (prog ++ [i]) d'.
  Proof.
    intros [Tn Tk Ti Td Th] H. unfold push in H. apply bind_ok in H. destruct H as (order & _ & H). apply bind_ok in H. destruct H as (g & Hg & H).
    injection H as <-.
    assert (F : has (g_out (d_graph d)) (d_next d) = false).
    { apply has_false. rewrite Tk, Tn, upto_In. lia. }
    assert (Fi : has (d_ins d) (d_next d) = false).
    { apply has_false. rewrite Ti, keys_combine, Tn, upto_In by apply upto_length. lia. }
    assert (I2 : d_ins (add_isolated d i) = combine (upto (length (prog ++ [i]))) (prog ++ [i])).
    { cbn [add_isolated d_ins]. rewrite (merase_none _ _ Fi), Ti, Tn, app_length. cbn [length]. rewrite Nat.add_1_r, upto_S, combine_snoc by apply upto_length. reflexivity. }
    assert (K : forall (l : list N) g0, keys (g_out g0) = upto (length (prog ++ [i])) ->
      foldM (fun g l => if N.eqb l (d_next d) then Ok g
        else do a <- at_map (d_ins (add_isolated d i)) l ;; do b <- at_map (d_ins (add_isolated d i)) (d_next d) ;;
             do c <- can a b ;; if c then Ok g else add_edge g l (d_next d)) l g0 = Ok g ->
      keys (g_out g) = upto (length (prog ++ [i]))).
    { induction l as [|z l IH]; intros g0 K0 R; cbn [foldM] in R; [injection R as <-; exact K0|].
      apply bind_ok in R. destruct R as (g1 & R1 & R2). apply (IH g1); [|exact R2]. destruct (N.eqb z (d_next d)); [injection R1 as <-; exact K0|].
      apply bind_ok in R1. destruct R1 as (a & Ra & R1). apply bind_ok in R1. destruct R1 as (b & Rb & R1). apply bind_ok in R1. destruct R1 as (c & _ & R1).
      destruct c; [injection R1 as <-; exact K0|]. rewrite <- K0. apply (keys_add_edge _ _ _ _ R1); apply has_In; rewrite K0.
      - rewrite <- (keys_combine (upto (length (prog ++ [i]))) (prog ++ [i])) by apply upto_length. rewrite <- I2. apply has_In. unfold has. apply at_map_ok in Ra. now rewrite Ra.
      - rewrite <- (keys_combine (upto (length (prog ++ [i]))) (prog ++ [i])) by apply upto_length. rewrite <- I2. apply has_In. unfold has. apply at_map_ok in Rb. now rewrite Rb. }
    constructor; cbn [d_next d_graph d_ins d_deps d_pheads add_isolated]; auto.
    - rewrite Tn, app_length. cbn [length]. lia.
    - apply (K order (d_graph (add_isolated d i))); [|exact Hg]. cbn [add_isolated d_graph]. unfold add_node. rewrite F. cbn [g_out].
      unfold keys. rewrite map_app. cbn [map fst]. fold (keys (g_out (d_graph d))). rewrite Tk, Tn, app_length. cbn [length]. now rewrite Nat.add_1_r, upto_S.
  Qed.
  Lemma dag_of_tidy prog d : dag_of can prog = Ok d -> tidy prog d.
  Proof.
    unfold dag_of. revert d. induction prog as [|i prog IH] using rev_ind; intros d H.
    - injection H as <-. constructor; reflexivity.
    - rewrite foldM_app in H. apply bind_ok in H. destruct H as (d0 & H0 & H1). cbn [foldM] in H1. apply bind_ok in H1. destruct H1 as (d1 & H1 & H2).
      injection H2 as <-. eapply push_tidy; eauto.
  Qed.
  Lemma built_edges prog d : dag_of can prog = Ok d -> forall a b, E (d_graph d) a b <->
    exists i j x y, i < j /\ nth_error prog i = Some x /\ nth_error prog j = Some y /\ can x y = Ok false /\ a = N.of_nat i /\ b = N.of_nat j.
  Proof.
    intros H a b. destruct (dag_of_inv A can prog d H) as [S _]. rewrite (s_E _ _ _ _ _ _ S), cr_first. split.
    - intros (i & j & x & y & H1 & _ & H2). exists i, j, x, y. tauto.
    - intros (i & j & x & y & H1 & H2 & H3 & H4). exists i, j, x, y. split; [exact H1|]. split; [|tauto]. apply nth_error_Some. congruence.
  Qed.
  Lemma built_inv prog d : dag_of can prog = Ok d -> inv (d_graph d).
  Proof. intros H. destruct (dag_of_inv A can prog d H) as [S _]. apply (s_inv _ _ _ _ _ _ S). Qed.
End Shape.

(** ** The text *)
Lemma flat_map_lookup {B C} (g : N -> option B -> list C) (ks : list N) : forall (vs : list B), NoDup ks -> length ks = length vs ->
  flat_map (fun k => g k (alookup (combine ks vs) k)) ks = flat_map (fun kv => g (fst kv) (Some (snd kv))) (combine ks vs).
Proof.
  induction ks as [|k ks IH]; intros [|v vs] ND L; cbn [length] in L; try discriminate; [reflexivity|]. inversion ND as [|? ? Hn ND']; subst.
  cbn [combine flat_map fst snd alookup]. rewrite N.eqb_refl. f_equal. rewrite <- (IH vs ND') by lia. rewrite !flat_map_concat_map. f_equal. apply map_ext_in. intros a Ha.
  destruct (N.eqb_spec a k) as [->|_]; [contradiction|reflexivity].
Qed.
Lemma flat_map_keys {B C} (f : N -> list C) (m : list (N * B)) : flat_map (fun kv => f (fst kv)) m = flat_map f (keys m).
Proof. unfold keys. induction m as [|kv m IH]; cbn; [reflexivity|]. now rewrite IH. Qed.
Lemma intercalate_lines (l : list text) : intercalate LF (l ++ [[]]) = flat_map (fun x => x ++ [LF]) l.
Proof.
  induction l as [|x l IH]; [reflexivity|]. cbn [app flat_map]. rewrite <- IH. destruct (l ++ [[]]) as [|y r] eqn:X; [destruct l; discriminate|].
  cbn [intercalate]. rewrite <- app_assoc. reflexivity.
Qed.
Definition pairs (m : adj) : list (N * N) := flat_map (fun kv => map (fun b => (fst kv, b)) (snd kv)) m.
Lemma pairs_In m a b : NoDup (keys m) -> (In (a, b) (pairs m) <-> In b (get m a)).
Proof.
  unfold pairs, get. induction m as [|[k l] m IH]; intros ND; [cbn; tauto|]. inversion ND as [|? ? Hn ND']; subst.
  cbn [flat_map fst snd alookup]. rewrite in_app_iff, (IH ND'), in_map_iff. destruct (N.eqb_spec a k) as [->|D].
  - split; [intros [(x & X & H)|H]|intros H; left; eauto]; [congruence|]. exfalso. apply Hn. apply has_In. unfold has. destruct (alookup m k); [reflexivity|destruct H].
  - split; [intros [(x & X & H)|H]; [congruence|exact H]|auto].
Qed.
Lemma nodup_app {B} (a b : list B) : NoDup a -> NoDup b -> (forall x, In x a -> ~ In x b) -> NoDup (a ++ b).
Proof.
  induction a as [|x a IH]; intros Na Nb H; [exact Nb|]. inversion Na; subst. cbn. constructor.
  - rewrite in_app_iff. intros [X|X]; [contradiction|]. apply (H x); [now left|exact X].
  - apply IH; auto. intros y Hy. apply H. now right.
Qed.
Lemma pairs_NoDup m : NoDup (keys m) -> (forall kv, In kv m -> NoDup (snd kv)) -> NoDup (pairs m).
Proof.
  intros ND H. unfold pairs. induction m as [|[k l] m IH]; [constructor|]. inversion ND as [|? ? Hn ND']; subst. cbn [flat_map fst snd].
  apply nodup_app.
  - apply FinFun.Injective_map_NoDup; [intros x y X; congruence|]. apply (H (k, l)). now left.
  - apply IH; auto. intros kv Hk; apply H; now right.
  - intros [a b] H1 H2. apply in_map_iff in H1. destruct H1 as (x & X & _). injection X as <- <-.
      apply (pairs_In m k x ND') in H2. apply Hn. apply has_In. eapply get_in_has; eauto.
Qed.

(** What the code makes of the text of an instruction. *)
Definition shown (s : text) : text := str_replace s ">" (lit "&gt;").
Lemma substitute_In s t r c : In c (substitute s t r) -> In c s \/ In c r.
Proof. unfold substitute. rewrite in_flat_map. intros (x & Hx & H). destruct (Ascii.eqb x t); [auto|]. destruct H as [<-|[]]. auto. Qed.
Lemma shown_In s c : In c (shown s) -> In c s \/ In c (lit "&gt;").
Proof.
  unfold shown. destruct (in_dec ascii_dec ">"%char s) as [H|H]; [|rewrite str_replace_notin by exact H; auto].
  destruct (last_occurrence s _ H) as (pre & tail & -> & Ht). rewrite str_replace_last by exact Ht. intros X. apply substitute_In in X.
  destruct X as [X|X]; [left|auto]. apply in_app_iff in X. apply in_app_iff. destruct X as [X|[<-|[]]]; [auto|right; now left].
Qed.
Lemma number_LF i : ~ In LF (number i).
Proof. apply print_N_notin. reflexivity. Qed.
Lemma lit_LF s : forallb (fun c => negb (Ascii.eqb c LF)) (lit s) = true -> ~ In LF (lit s).
Proof. intros H X. rewrite forallb_forall in H. specialize (H _ X). now rewrite Ascii.eqb_refl in H. Qed.
Lemma app_LF (a b : text) : ~ In LF a -> ~ In LF b -> ~ In LF (a ++ b).
Proof. intros Ha Hb X. apply in_app_iff in X. tauto. Qed.
Lemma box_LF i s : ~ In LF s -> ~ In LF (box i s).
Proof. intros H. unfold box. repeat apply app_LF; auto using number_LF; apply lit_LF; vm_compute; reflexivity. Qed.
Lemma arrow_LF i j : ~ In LF (arrow i j).
Proof. unfold arrow. repeat apply app_LF; auto using number_LF; apply lit_LF; vm_compute; reflexivity. Qed.

Lemma node_line_box i s : node_line (N.of_nat i) (Some s) = box i (shown s) ++ [LF].
Proof. unfold node_line, box, number, shown. repeat (rewrite <- app_assoc). unfold lit, endl. cbn [list_ascii_of_string app]. reflexivity. Qed.
Lemma edge_line_arrow i j : edge_line (N.of_nat i) (N.of_nat j) = arrow i j ++ [LF].
Proof. unfold edge_line, arrow, number. rewrite <- !app_assoc. reflexivity. Qed.

Lemma mapM_shows {A} (show : A -> outcome text) prog texts : Forall2 (fun x s => show x = Ok s) prog texts -> forall ks, length ks = length prog ->
  mapM (fun kv => do t <- show (snd kv) ;; Ok (fst kv, t)) (combine ks prog) = Ok (combine ks texts : list (N * text)).
Proof.
  induction 1 as [|x s prog texts H F IH]; intros [|k ks] L; cbn [length] in L; try discriminate; [reflexivity|].
  cbn [combine mapM fst snd]. rewrite H. cbn [bind]. rewrite IH by lia. reflexivity.
Qed.
Lemma combine_upto {B C} (f : nat -> B -> list C) n (l : list B) : length l = n ->
  flat_map (fun kv => f (N.to_nat (fst kv)) (snd kv)) (combine (upto n) l) = flat_map (fun il => f (fst il) (snd il)) (combine (seq 0 n) l).
Proof.
  intros <-. unfold upto. generalize 0 as a. induction l as [|x l IH]; intros a; cbn; [reflexivity|]. rewrite Nat2N.id, IH. reflexivity.
Qed.
Lemma get_snd m kv : NoDup (keys m) -> In kv m -> get m (fst kv) = snd kv.
Proof.
  unfold get. induction m as [|[k l] m IH]; intros ND H; [destruct H|]. inversion ND as [|? ? Hn ND']; subst. cbn [alookup].
  destruct H as [<-|H]; [cbn; now rewrite N.eqb_refl|]. destruct (N.eqb_spec (fst kv) k) as [X|_]; [|now apply IH].
  exfalso. apply Hn. rewrite <- X. unfold keys. now apply in_map.
Qed.
Lemma combine_map_r {B C D} (f : C -> D) (l : list B) : forall l', combine l (map f l') = map (fun p => (fst p, f (snd p))) (combine l l').
Proof. induction l as [|x l IH]; intros [|y l']; cbn; [reflexivity..|]. now rewrite IH. Qed.

Section Draw.
  Variable A : Type.
  Variable can : A -> A -> outcome bool.
  Variable show : A -> outcome text.
  Lemma dag_text_draws prog d texts : dag_of can prog = Ok d -> Forall2 (fun x s => show x = Ok s) prog texts -> (forall s, In s texts -> ~ In LF s) ->
    exists t, dag_text show d = Ok t /\
      picture (map shown texts) (fun i j => i < j /\ exists x y, nth_error prog i = Some x /\ nth_error prog j = Some y /\ can x y = Ok false) t.
  Proof.
    intros Hd F Hlf. destruct (dag_of_tidy A can prog d Hd) as [Tn Tk Ti Td Th]. pose proof (built_edges A can prog d Hd) as HE.
    pose proof (built_inv A can prog d Hd) as I. assert (L : length prog = length texts) by (clear - F; induction F; cbn; lia).
    unfold dag_text. rewrite Ti, (mapM_shows show prog texts F) by apply upto_length. cbn [bind]. rewrite Td, Th. cbn [flat_map app].
    eexists. split; [reflexivity|]. set (m := g_out (d_graph d)) in *.
    assert (KN : NoDup (keys m)) by apply (inv_kout _ I).
    set (ps := map (fun p => (N.to_nat (fst p), N.to_nat (snd p))) (pairs m)).
    assert (Ends : forall a b, In (a, b) (pairs m) <-> E (d_graph d) a b) by (intros a b; apply pairs_In; exact KN).
    exists ps. split; [|split].
    - apply FinFun.Injective_map_NoDup; [intros [a b] [a' b'] X; cbn in X; injection X as X1 X2; f_equal; lia|].
      apply pairs_NoDup; [exact KN|]. intros kv Hk. rewrite <- (get_snd m kv KN Hk). apply (inv_out _ I).
    - intros i j. unfold ps. rewrite in_map_iff. split.
      + intros ([a b] & X & H). cbn in X. injection X as <- <-. apply Ends, HE in H. destruct H as (i & j & x & y & H1 & H2 & H3 & H4 & -> & ->).
        rewrite !Nat2N.id. eauto 8.
      + intros (H1 & x & y & H2 & H3 & H4). exists (N.of_nat i, N.of_nat j). cbn [fst snd]. rewrite !Nat2N.id. split; [reflexivity|].
        apply Ends, HE. exists i, j, x, y. auto 6.
    - cbv zeta. rewrite map_length. split.
      + rewrite !app_comm_cons, !app_assoc.
        change [lit "}"; []] with ([lit "}"] ++ [[]]). rewrite !app_assoc, intercalate_lines, !flat_map_app. unfold graph_text. fold m. cbn [flat_map].
        rewrite (flat_map_keys (fun k => node_line k (alookup _ k)) m), Tk.
        rewrite (flat_map_lookup node_line (upto (length prog)) texts).
        2:{ unfold upto. apply FinFun.Injective_map_NoDup; [intros x y X; lia|apply seq_NoDup]. }
        2:{ now rewrite upto_length. }
        rewrite <- L.
        assert (N1 : flat_map (fun kv => node_line (fst kv) (Some (snd kv))) (combine (upto (length prog)) texts) =
          flat_map (fun x => x ++ [LF]) (map (fun il => box (fst il) (snd il)) (combine (seq 0 (length prog)) (map shown texts)))).
        { rewrite combine_map_r, map_map. cbn [fst snd].
          transitivity (flat_map (fun kv => box (N.to_nat (fst kv)) (shown (snd kv)) ++ [LF]) (combine (upto (length prog)) texts)).
          - rewrite !flat_map_concat_map. f_equal. apply map_ext. intros [k s]. cbn [fst snd]. rewrite <- (N2Nat.id k) at 1. apply node_line_box.
          - rewrite (combine_upto (fun i s => box i (shown s) ++ [LF])) by auto. rewrite !flat_map_concat_map, map_map. reflexivity. }
        assert (N2 : flat_map (fun kv => flat_map (edge_line (fst kv)) (snd kv)) m =
          flat_map (fun x => x ++ [LF]) (map (fun a => arrow (fst a) (snd a)) ps)).
        { unfold ps, pairs. rewrite !map_map. cbn [fst snd]. clear. induction m as [|[k l] m IH]; [reflexivity|].
          cbn [flat_map fst snd]. rewrite IH, map_app, flat_map_app. f_equal. rewrite map_map, !flat_map_concat_map, map_map. cbn [fst snd]. f_equal. apply map_ext.
          intros b. rewrite <- edge_line_arrow, !N2Nat.id. reflexivity. }
        rewrite N1, N2. unfold title, endl. rewrite ?app_nil_r, <- ?app_assoc. reflexivity.
      + constructor; [apply lit_LF; vm_compute; reflexivity|]. rewrite !Forall_app. split; [|split].
        * rewrite Forall_map, Forall_forall. intros [i s] H. apply in_combine_r in H. cbn [fst snd]. apply in_map_iff in H. destruct H as (s' & <- & H).
          apply box_LF. intros X. apply shown_In in X. destruct X as [X|X]; [exact (Hlf _ H X)|]. revert X. apply lit_LF. vm_compute. reflexivity.
        * rewrite Forall_map, Forall_forall. intros a _. apply arrow_LF.
        * repeat constructor; [apply lit_LF; vm_compute; reflexivity|intros []].
  Qed.
End Draw.

(** ** Instructions *)
Definition special (c : ascii) : Prop := c = LF \/ c = "<"%char \/ c = "&"%char \/ c = ">"%char.
Lemma special_N c n : special c -> ~ In c (print_N n).
Proof. intros [->|[->|[->| ->]]]; apply print_N_notin; reflexivity. Qed.
Lemma special_Z c z : special c -> ~ In c (print_Z z).
Proof. intros [->|[->|[->| ->]]]; apply print_Z_chars; (reflexivity || discriminate). Qed.
Lemma special_lit c s : special c -> forallb (fun x => negb (Ascii.eqb x LF || Ascii.eqb x "<" || Ascii.eqb x "&" || Ascii.eqb x ">")) (lit s) = true -> ~ In c (lit s).
Proof. intros Hc H X. rewrite forallb_forall in H. specialize (H _ X). destruct Hc as [->|[->|[->| ->]]]; discriminate H. Qed.
Lemma special_nil (c : ascii) : ~ In c []. Proof. intros []. Qed.
Lemma special_app (c : ascii) a b : ~ In c a -> ~ In c b -> ~ In c (a ++ b).
Proof. intros Ha Hb X. apply in_app_iff in X. tauto. Qed.
Lemma special_pauli c p : special c -> ~ In c (pauli_to_string p).
Proof. intros [->|[->|[->| ->]]]; destruct p; cbn; intuition discriminate. Qed.
Lemma special_basic c b : special c -> ~ In c (basic_name b).
Proof. intros [->|[->|[->| ->]]]; destruct b; cbn; intuition discriminate. Qed.
Lemma special_flat {B} (c : ascii) (f : B -> text) l : (forall x, ~ In c (f x)) -> ~ In c (flat_map f l).
Proof. intros H X. apply in_flat_map in X. destruct X as (x & _ & X). exact (H x X). Qed.
Ltac no_special := repeat first
  [ apply special_app | apply special_nil
  | apply special_N; assumption | apply special_Z; assumption | apply special_pauli; assumption | apply special_basic; assumption
  | apply special_lit; [assumption|vm_compute; reflexivity] ].
Lemma special_join c l : special c -> (forall x, In x l -> ~ In c x) -> ~ In c (join l (lit ",")).
Proof.
  intros Hc H. unfold lit. cbn [list_ascii_of_string]. rewrite join_intercalate. induction l as [|x l IH]; [intros []|]. destruct l as [|y l]; [apply H; now left|].
  change (intercalate "," (x :: y :: l)) with (x ++ ","%char :: intercalate "," (y :: l)). apply special_app; [apply H; now left|].
  intros [X|X]; [subst c; destruct Hc as [X|[X|[X|X]]]; discriminate X|]. revert X. apply IH. intros z Hz. apply H. now right.
Qed.
Lemma special_local c l : special c -> ~ In c (print_local l).
Proof. intros Hc. destruct l; unfold print_local, print_cell; no_special. Qed.
Lemma ok_inj {B} (a b : B) : Ok a = Ok b -> a = b.
Proof. intros H. now injection H. Qed.
Lemma special_run c ls : special c -> forall k i s, print_local_run ls i k = Ok s -> ~ In c s.
Proof.
  intros Hc. induction k as [|k IH]; intros i s H; cbn [print_local_run] in H; [injection H as <-; intros []|].
  apply bind_ok in H. destruct H as (l & _ & H). apply bind_ok in H. destruct H as (r & Hr & H). injection H as <-.
  apply special_app; [now apply special_local|]. apply special_app; [destruct k; [intros []|apply (special_lit c ";"); [exact Hc|reflexivity]]|exact (IH _ _ Hr)].
Qed.
Lemma special_sets c sets : special c -> forall cs s, print_local_sets sets cs = Ok s -> ~ In c s.
Proof.
  intros Hc. induction sets as [|x sets IH]; intros cs s H; cbn [print_local_sets] in H; [injection H as <-; intros []|].
  destruct cs as [|[a b] cs]; [discriminate|]. apply bind_ok in H. destruct H as (u & Hu & H). apply bind_ok in H. destruct H as (v & Hv & H). injection H as <-.
  apply special_app; [exact (special_run _ _ Hc _ _ _ Hu)|exact (IH _ _ Hv)].
Qed.
Lemma special_op c o s : special c -> print_op o = Ok s -> (forall ids, o <> Declare ids) -> (c = ">"%char -> forall t st pl, o <> Init t st pl) -> ~ In c s.
Proof.
  intros Hc H Nd Ni. destruct o; cbv beta iota delta [print_op] in H.
  - exfalso. eapply Nd; reflexivity.
  - apply ok_inj in H; subst s. destruct is_negative; no_special.
  - apply ok_inj in H; subst s. apply special_app; [no_special|]. apply special_app; [no_special|]. apply special_app; [destruct is_negative; no_special|]. apply special_app.
    + apply special_join; [exact Hc|]. intros x Hx. apply in_map_iff in Hx. destruct Hx as (y & <- & _). no_special.
    + destruct local as [l|]; [|intros []]. apply special_app; [no_special|]. apply special_app; [now apply special_local|no_special].
  - assert (Hg : c <> ">"%char) by (intros X; apply (Ni X target state place); reflexivity).
    apply ok_inj in H; subst s. apply special_app; [no_special|]. apply special_app; [no_special|]. apply special_app; [no_special|]. apply special_app; [no_special|]. apply special_app.
    + destruct Hc as [->|[->|[->| ->]]]; destruct state; cbn; intuition discriminate.
    + destruct place; unfold print_pnt; no_special.
  - apply bind_ok in H. destruct H as (tl & Ht & H). apply ok_inj in H; subst s. unfold print_pnt. no_special.
    destruct counter as [[a b]|]; [|apply ok_inj in Ht; subst tl; intros []]. destruct locals as [ls|]; [|apply ok_inj in Ht; subst tl; intros []].
    apply bind_ok in Ht. destruct Ht as (r & Hr & Ht). apply ok_inj in Ht; subst tl. no_special. exact (special_run _ _ Hc _ _ _ Hr).
  - apply ok_inj in H; subst s. no_special.
  - apply ok_inj in H; subst s. no_special. destruct local as [l|]; [|intros []]. no_special. now apply special_local.
  - apply bind_ok in H. destruct H as (n & Hn & H). apply ok_inj in H; subst s. no_special. destruct op; try discriminate Hn; apply ok_inj in Hn; subst n; no_special.
  - apply ok_inj in H; subst s. no_special.
  - apply ok_inj in H; subst s. no_special. apply special_flat. intros x. no_special.
  - apply bind_ok in H. destruct H as (tl & Ht & H). apply ok_inj in H; subst s. no_special.
    destruct counters as [a|]; [|apply ok_inj in Ht; subst tl; intros []]. destruct local_sets as [ls|]; [|apply ok_inj in Ht; subst tl; intros []].
    apply bind_ok in Ht. destruct Ht as (r & Hr & Ht). apply ok_inj in Ht; subst tl. no_special. exact (special_sets _ _ Hc _ _ Hr).
  - apply ok_inj in H; subst s. no_special.
Qed.
Lemma picture_ext labels dep dep' t : (forall i j, dep i j <-> dep' i j) -> picture labels dep t -> picture labels dep' t.
Proof. intros H (arrows & H1 & H2 & H3). exists arrows. split; [exact H1|]. split; [|exact H3]. intros i j. now rewrite H2. Qed.
Lemma operating_works i p : In p (operating_patches i) <-> works_on i p.
Proof. rewrite operating_In. unfold works_on, names. destruct (op i); intuition auto. Qed.
Lemma clash_works x y : lli_can x y = Ok false <-> exists p, works_on x p /\ works_on y p.
Proof.
  unfold lli_can, can_commute. split.
  - intros H. destruct (set_intersection (operating_patches x) (operating_patches y)) as [|p l] eqn:X; [discriminate|]. exists p.
    assert (Hp : In p (set_intersection (operating_patches x) (operating_patches y))) by (rewrite X; now left).
    apply filter_In in Hp. destruct Hp as [H1 H2]. apply memN_In in H2. now rewrite <- !operating_works.
  - intros (p & H1 & H2). rewrite <- operating_works in H1, H2. assert (Hp : In p (set_intersection (operating_patches x) (operating_patches y))).
    { apply filter_In. split; [exact H1|now apply memN_In]. }
    destruct (set_intersection _ _); [destruct Hp|reflexivity].
Qed.
Lemma waits_iff prog i j : (i < j /\ exists x y, nth_error prog i = Some x /\ nth_error prog j = Some y /\ lli_can x y = Ok false) <-> waits prog i j.
Proof.
  unfold waits. split; intros [H1 H2]; (split; [exact H1|]).
  - destruct H2 as (x & y & H2 & H3 & H4). apply clash_works in H4. destruct H4 as (p & H4). exists x, y, p. auto.
  - destruct H2 as (x & y & p & H2 & H3 & H4). exists x, y. rewrite clash_works. eauto.
Qed.

(** The first id of a declaration is written as one character (C04): that character must not be a line break ... *)
Definition one_line (i : instr) : Prop := match op i with Declare (v :: _) => (v mod 256)%N <> 10%N | _ => True end.
(** ... nor mean something in a label; and no placement may be given to an initialisation. *)
Definition legible (i : instr) : Prop :=
  match op i with
  | Declare (v :: _) => ~ In (v mod 256)%N [10; 38; 60; 62]%N
  | Init _ _ (Some _) => False
  | _ => True
  end.
Lemma join_ids_In c v r : In c (join_ids (v :: r) (lit ",")) -> c = ascii_of_N (v mod 256) \/ (special c -> False).
Proof.
  cbn [join_ids]. unfold lit. cbn [list_ascii_of_string]. rewrite join_go_spec. intros H. apply in_app_iff in H. destruct H as [[<-|[]]|H]; [auto|]. right.
  intros Hc. apply in_concat in H. destruct H as (x & Hx & H). apply in_map_iff in Hx. destruct Hx as (y & <- & Hy). apply in_map_iff in Hy. destruct Hy as (n & <- & _).
  destruct H as [<-|H]; [destruct Hc as [X|[X|[X|X]]]; discriminate X|]. exact (special_N c n Hc H).
Qed.
Lemma ascii_mod v n : ascii_of_N (v mod 256) = ascii_of_N n -> (n < 256)%N -> (v mod 256 = n)%N.
Proof.
  intros H L. assert (X : N_of_ascii (ascii_of_N (v mod 256)) = N_of_ascii (ascii_of_N n)) by now rewrite H.
  rewrite !N_ascii_embedding in X; auto. apply N.mod_lt. discriminate.
Qed.
Lemma special_instr c i s : special c -> print_instr i = Ok s -> (c = ">"%char -> forall t st pl, op i <> Init t st pl) ->
  (forall v r, op i = Declare (v :: r) -> c <> ascii_of_N (v mod 256)) -> ~ In c s.
Proof.
  intros Hc H Hi Hd. unfold print_instr in H. destruct (op i) eqn:O; try (eapply special_op; [exact Hc|exact H|discriminate|intros X; first [discriminate|exact (Hi X)]]).
  cbv beta iota delta [print_op] in H. apply ok_inj in H. subst s. no_special. destruct patch_ids as [|v r]; [intros []|].
  intros X. apply join_ids_In in X. destruct X as [X|X]; [exact (Hd v r eq_refl X)|exact (X Hc)].
Qed.
Lemma one_line_text i s : one_line i -> print_instr i = Ok s -> ~ In LF s.
Proof.
  intros Ho H. apply (special_instr LF i s); auto; [now left|discriminate|]. intros v r O X. unfold one_line in Ho. rewrite O in Ho. apply Ho.
  apply ascii_mod; [symmetry; exact X|reflexivity].
Qed.
Lemma escaped_plain s : (forall c, special c -> ~ In c s) -> escaped s = s.
Proof.
  intros H. unfold escaped. induction s as [|x s IH]; [reflexivity|]. cbn [flat_map]. rewrite IH by (intros c Hc X; exact (H c Hc (or_intror X))).
  unfold escaped_char. destruct (Ascii.eqb_spec x "&"); [exfalso; apply (H x); [unfold special; auto|now left]|].
  destruct (Ascii.eqb_spec x "<"); [exfalso; apply (H x); [unfold special; auto|now left]|].
  destruct (Ascii.eqb_spec x ">"); [exfalso; apply (H x); [unfold special; auto|now left]|]. reflexivity.
Qed.
Lemma escaped_app a b : escaped (a ++ b) = escaped a ++ escaped b.
Proof. apply flat_map_app. Qed.
Definition init_text (t : N) (st : init_state) : text := lit "Init " ++ print_N t ++ lit " " ++ print_state st.
Lemma init_split t st : exists a, print_state st = a ++ [">"%char] /\ ~ In ">"%char (lit "Init " ++ print_N t ++ lit " " ++ a) /\
  (forall c, special c -> ~ In c (lit "Init " ++ print_N t ++ lit " " ++ a)).
Proof.
  destruct st; [exists (lit "|0")|exists (lit "|+")]; (split; [reflexivity|]); (split; [|intros c Hc; no_special]);
    apply special_app; try (cbn; intuition discriminate); apply special_app; try (cbn; intuition discriminate);
    apply print_N_notin; reflexivity.
Qed.
Lemma shown_init t st tail : ~ In ">"%char tail -> shown (init_text t st ++ tail) = escaped (init_text t st).
Proof.
  intros H. destruct (init_split t st) as (a & Ha & Hg & Hs). unfold init_text. rewrite Ha, !app_assoc. rewrite <- (app_assoc _ [">"%char] tail). cbn [app].
  unfold shown. rewrite str_replace_last by exact H. rewrite <- !app_assoc. rewrite (app_assoc (lit "Init ")), (app_assoc (lit "Init " ++ print_N t)), (app_assoc _ a) .
  rewrite escaped_app, substitute_app. f_equal. rewrite substitute_notin, escaped_plain; auto; intros; rewrite <- !app_assoc; auto.
Qed.
Lemma legible_shown i s : legible i -> print_instr i = Ok s -> shown s = escaped s.
Proof.
  intros L H. assert (G : (forall t st pl, op i <> Init t st pl) -> shown s = escaped s).
  { intros Ni. assert (P : forall c, special c -> ~ In c s).
    { intros c Hc. apply (special_instr c i s); auto. intros v r O X. unfold legible in L. rewrite O in L. apply L.
      destruct Hc as [->|[->|[->| ->]]]; symmetry in X.
      - change LF with (ascii_of_N 10) in X. rewrite (ascii_mod _ _ X); [now left|reflexivity].
      - change "<"%char with (ascii_of_N 60) in X. rewrite (ascii_mod _ _ X); [cbn; auto|reflexivity].
      - change "&"%char with (ascii_of_N 38) in X. rewrite (ascii_mod _ _ X); [cbn; auto|reflexivity].
      - change ">"%char with (ascii_of_N 62) in X. rewrite (ascii_mod _ _ X); [cbn; auto|reflexivity]. }
    rewrite escaped_plain by exact P. apply str_replace_notin. apply P. unfold special. auto. }
  destruct (op i) eqn:O; try (apply G; discriminate). unfold legible in L. rewrite O in L. destruct place; [destruct L|].
  unfold print_instr in H. rewrite O in H. cbv beta iota delta [print_op] in H. apply ok_inj in H. subst s.
  rewrite app_nil_r. change (lit "Init" ++ lit " " ++ print_N target ++ lit " " ++ print_state state) with (init_text target state).
  rewrite <- (app_nil_r (init_text target state)) at 1.
  apply shown_init. intros [].
Qed.

(** The picture shows every instruction, in order, with its text, and exactly the pairs where the later one has to wait. *)
Theorem C61_lli : forall prog texts, Forall2 (fun i s => print_instr i = Ok s) prog texts -> Forall legible prog ->
  exists t, lli_graph prog = Ok t /\ picture (map escaped texts) (waits prog) t.
Proof.
  intros prog texts F L. destruct (C21_lli_builds prog) as (d & Hd).
  destruct (dag_text_draws instr lli_can print_instr prog d texts Hd F) as (t & Ht & P).
  { intros s Hs. revert L Hs. clear - F. induction F as [|i s' prog texts H F IH]; intros L Hs; [destruct Hs|]. inversion L as [|? ? L1 L2]; subst.
    destruct Hs as [<-|Hs]; [|now apply IH]. apply (one_line_text i); [|exact H]. unfold one_line. unfold legible in L1. destruct (op i); auto.
    destruct patch_ids; auto. cbn in L1. intuition. }
  exists t. unfold lli_graph. rewrite Hd. split; [exact Ht|]. replace (map escaped texts) with (map shown texts).
  - revert P. apply picture_ext. intros i j. apply waits_iff.
  - clear - F L. induction F as [|i s prog texts H F IH]; [reflexivity|]. inversion L as [|? ? L1 L2]; subst. cbn [map]. rewrite (IH L2), (legible_shown i s L1 H). reflexivity.
Qed.
(** Even when a label is wrong, the nodes and arrows are right, as long as the labels have no line break; and this is how
    the placement of an initialisation is lost: everything after the last ">" is. *)
Theorem C61_placement_refuted : forall prog texts, Forall2 (fun i s => print_instr i = Ok s) prog texts -> Forall one_line prog ->
  exists t labels, lli_graph prog = Ok t /\ picture labels (waits prog) t /\ length labels = length prog /\
    (forall k i s, nth_error prog k = Some i -> nth_error texts k = Some s -> legible i -> nth_error labels k = Some (escaped s)) /\
    (forall k i q st pl, nth_error prog k = Some i -> op i = Init q st (Some pl) ->
      nth_error labels k = Some (escaped (lit "Init " ++ print_N q ++ lit " " ++ print_state st))).
Proof.
  intros prog texts F L. destruct (C21_lli_builds prog) as (d & Hd).
  destruct (dag_text_draws instr lli_can print_instr prog d texts Hd F) as (t & Ht & P).
  { intros s Hs. revert L Hs. clear - F. induction F as [|i s' prog texts H F IH]; intros L Hs; [destruct Hs|]. inversion L as [|? ? L1 L2]; subst.
    destruct Hs as [<-|Hs]; [|now apply IH]. exact (one_line_text i _ L1 H). }
  exists t, (map shown texts). unfold lli_graph. rewrite Hd. split; [exact Ht|]. split; [revert P; apply picture_ext; intros i j; apply waits_iff|].
  assert (K : forall k i s, nth_error prog k = Some i -> nth_error texts k = Some s -> print_instr i = Ok s).
  { clear - F. induction F as [|i s prog texts H F IH]; intros [|k] i' s' H1 H2; try discriminate; cbn in H1, H2; [congruence|eauto]. }
  assert (Ln : length texts = length prog) by (clear - F; induction F; cbn; lia).
  split; [now rewrite map_length|]. split.
  - intros k i s H1 H2 Hl. rewrite nth_error_map, H2. cbn [option_map]. f_equal. exact (legible_shown i s Hl (K k i s H1 H2)).
  - intros k i q st pl H1 O. rewrite nth_error_map. destruct (nth_error texts k) as [s|] eqn:H2.
    2:{ exfalso. apply nth_error_None in H2. assert (k < length prog) by (apply nth_error_Some; congruence). lia. }
    cbn [option_map]. f_equal. specialize (K k i s H1 H2). unfold print_instr in K. rewrite O in K. cbv beta iota delta [print_op] in K. apply ok_inj in K. subst s.
    transitivity (shown (init_text q st ++ (lit " " ++ print_pnt pl))).
    + f_equal. unfold init_text. rewrite <- !app_assoc. reflexivity.
    + apply shown_init. unfold print_pnt. apply special_app; [cbn; intuition discriminate|]. assert (Hc : special ">"%char) by (unfold special; auto). no_special.
Qed.
Print Assumptions C61_lli.
Print Assumptions C61_placement_refuted.
Example C61_lli_ex : exists t,
  lli_graph [instr_of (Init 4 StPlus None); instr_of (MultiMeasure [(4, PZ); (1, PX)]%N false None); instr_of (SingleOp 2 SqH false); instr_of (Measure 4 PX false)] = Ok t
  /\ split_on t LF = [lit "digraph DirectedGraph {"; box 0 (lit "Init 4 |+&gt;"); box 1 (lit "MultiBodyMeasure 4:Z,1:X"); box 2 (lit "HGate 2"); box 3 (lit "MeasureSinglePatch 4 X");
       lit "  0 -> 1;"; lit "  0 -> 3;"; lit "  1 -> 3;"; lit "}"; []].
Proof. eexists. split; vm_compute; reflexivity. Qed.
Example C61_placement_ex : exists t,
  lli_graph [instr_of (Init 4 StPlus (Some (mkPNT 3 PZ)))] = Ok t /\ lli_graph [instr_of (Init 4 StPlus None)] = Ok t.
Proof. eexists. split; vm_compute; reflexivity. Qed.

(** The character standing for the first declared id is neither checked nor escaped: 60 opens a tag ... *)
Theorem C61_markup_refuted : forall v r, (v mod 256 = 60)%N -> exists t s, lli_graph [instr_of (Declare (v :: r))] = Ok t /\
  print_instr (instr_of (Declare (v :: r))) = Ok s /\ picture [s] (waits [instr_of (Declare (v :: r))]) t /\ escaped s <> s.
Proof.
  intros v r Hv. set (i := instr_of (Declare (v :: r))). set (s := lit "DeclareLogicalQubitPatches" ++ lit " " ++ join_ids (v :: r) (lit ",")).
  assert (Hs : print_instr i = Ok s) by reflexivity. destruct (C21_lli_builds [i]) as (d & Hd).
  assert (S1 : forall c, special c -> In c s -> c = "<"%char).
  { intros c Hc X. destruct (ascii_dec c "<"%char) as [E|E]; [exact E|]. exfalso. revert X. apply (special_instr c i); auto; [discriminate|].
    intros v' r' O. injection O as <- <-. rewrite Hv. exact E. }
  destruct (dag_text_draws instr lli_can print_instr [i] d [s] Hd) as (t & Ht & P).
  { repeat constructor. }
  { intros s' [<-|[]] X. apply S1 in X; [discriminate X|now left]. }
  exists t, s. unfold lli_graph. rewrite Hd. split; [exact Ht|]. split; [exact Hs|]. split.
  - assert (Sh : shown s = s).
    { apply str_replace_notin. intros X. apply S1 in X; [discriminate X|unfold special; auto]. }
    cbn [map] in P. rewrite Sh in P. revert P. apply picture_ext. intros a b. apply waits_iff.
  - intros X. assert (In "<"%char (escaped s)).
    { rewrite X. unfold s. apply in_or_app. right. apply in_or_app. right. cbn [join_ids]. unfold lit. cbn [list_ascii_of_string]. rewrite join_go_spec.
      apply in_or_app. left. rewrite Hv. now left. }
    revert H. unfold escaped. rewrite in_flat_map. intros (c & _ & Hc). unfold escaped_char in Hc.
    destruct (Ascii.eqb_spec c "&"); [cbn in Hc; intuition discriminate|]. destruct (Ascii.eqb_spec c "<"); [cbn in Hc; intuition discriminate|].
    destruct (Ascii.eqb_spec c ">"); [cbn in Hc; intuition discriminate|]. destruct Hc as [Hc|[]]. congruence.
Qed.
(** ... and 10 breaks the line, so that there is no picture with this one node. *)
Theorem C61_line_break_refuted : exists t, lli_graph [instr_of (Declare [10%N])] = Ok t /\
  forall label, ~ picture [label] (waits [instr_of (Declare [10%N])]) t.
Proof.
  set (T := lli_graph [instr_of (Declare [10%N])]). assert (X : exists t, T = Ok t /\ count_char LF t = 4) by (eexists; split; vm_compute; reflexivity).
  destruct X as (t & Ht & C). exists t. split; [exact Ht|]. intros label (arrows & _ & H2 & H3 & H4). cbv zeta in *.
  destruct arrows as [|[i j] arrows].
  - cbn [length seq combine map app fst snd] in *. inversion H4 as [|? ? _ H5]; subst. inversion H5 as [|? ? H6 _]; subst.
    assert (CN : forall l, ~ In LF l -> count_char LF l = 0) by (intros l Hl; apply count_occ_not_In; exact Hl).
    assert (C1 : count_char LF (intercalate LF [title; box 0 label; lit "}"; []]) = 3).
    { cbn [intercalate]. unfold count_char in *. rewrite count_occ_app. cbn [count_occ]. destruct (ascii_dec LF LF) as [_|n]; [|congruence].
      rewrite count_occ_app. cbn [count_occ]. destruct (ascii_dec LF LF) as [_|n]; [|congruence]. rewrite (CN _ H6). vm_compute. reflexivity. }
    rewrite C1 in C. discriminate C.
  - assert (W : waits [instr_of (Declare [10%N])] i j) by (apply H2; now left). destruct W as (L & x & y & p & W1 & W2 & _).
    destruct i as [|i], j as [|j]; try lia; cbn in W2; destruct j; discriminate W2.
Qed.
Print Assumptions C61_markup_refuted.
Print Assumptions C61_line_break_refuted.

(** ** Gates *)
Definition gate_waits (prog : list gate) (i j : nat) : Prop :=
  i < j /\ exists x y q, nth_error prog i = Some x /\ nth_error prog j = Some y /\ gate_on x q /\ gate_on y q /\ ~ common_control x y q.
Lemma special_gate c g : special c -> ~ In c (print_gate g).
Proof.
  intros Hc. destruct g as [t b|t f|q [t b|t f] ct pl|reg t]; cbv beta iota delta [print_gate]; no_special. destruct (fr_num f =? 1)%Z; no_special.
Qed.
Lemma common_control_dec x y q : common_control x y q \/ ~ common_control x y q.
Proof.
  destruct x as [t b|t f|cx tx ax px|reg t], y as [t' b'|t' f'|cy ty ay py|reg' t']; try (right; intros (? & ? & ? & ? & ? & ? & X & Y & _); discriminate).
  destruct (N.eq_dec cx q) as [->|D]; [|right; intros (? & ? & ? & ? & ? & ? & X & Y & _); congruence].
  destruct (N.eq_dec cy q) as [->|D]; [|right; intros (? & ? & ? & ? & ? & ? & X & Y & _); congruence].
  destruct (in_dec N.eq_dec q (target_qubits tx)) as [I1|I1]; [destruct (in_dec N.eq_dec q (target_qubits ty)) as [I2|I2]|].
  - right. intros (? & ? & ? & ? & ? & ? & X & Y & Z). injection X as <- <- <-. injection Y as <- <- <-. tauto.
  - left. exists tx, ty, ax, px, ay, py. tauto.
  - left. exists tx, ty, ax, px, ay, py. tauto.
Qed.
Lemma shared_dec x y : (forall reg t, x <> GReset reg t) -> (forall reg t, y <> GReset reg t) ->
  (exists q, gate_on x q /\ gate_on y q /\ ~ common_control x y q) \/ (forall q, gate_on x q -> gate_on y q -> common_control x y q).
Proof.
  intros Hx Hy. destruct (operating_on x Hx) as (lx & _ & Px). destruct (operating_on y Hy) as (ly & _ & Py).
  assert (G : forall l, (exists q, In q l /\ gate_on y q /\ ~ common_control x y q) \/ (forall q, In q l -> gate_on y q -> common_control x y q)).
  { induction l as [|q l [(q' & H)|IH]]; [right; intros q []|left; exists q'; split; [right; tauto|tauto]|].
    destruct (common_control_dec x y q) as [C|C]; [right; intros q' [<-|H]; auto|].
    destruct (in_dec N.eq_dec q ly) as [I|I]; [left; exists q; split; [now left|]; split; [now apply Py|exact C]|].
    right. intros q' [<-|H]; auto. intros X. exfalso. apply I. now apply Py. }
  destruct (G lx) as [(q & H1 & H2)|H]; [left; exists q; split; [now apply Px|exact H2]|right]. intros q H1. apply H. now apply Px.
Qed.
Theorem C61_gates : forall prog, (forall reg t, ~ In (GReset reg t) prog) ->
  exists t, gate_graph prog = Ok t /\ picture (map escaped (map print_gate prog)) (gate_waits prog) t.
Proof.
  intros prog NR. destruct (dag_of_built gate gates_can_commute prog) as (d & Hd & _).
  { intros i j x y _ H1 H2. destruct (C18_gates x y) as (r & H & _); [intros reg q X; subst; eapply NR, nth_error_In; eauto..|eauto]. }
  destruct (dag_text_draws gate gates_can_commute (fun g => Ok (print_gate g)) prog d (map print_gate prog) Hd) as (t & Ht & P).
  { clear. induction prog; constructor; auto. }
  { intros s Hs. apply in_map_iff in Hs. destruct Hs as (g & <- & _). apply special_gate. now left. }
  exists t. unfold gate_graph. rewrite Hd. split; [exact Ht|]. replace (map escaped (map print_gate prog)) with (map shown (map print_gate prog)).
  - revert P. apply picture_ext. intros i j. split; intros [H1 H2]; (split; [exact H1|]).
    + destruct H2 as (x & y & H2 & H3 & H4). destruct (C18_gates x y) as (r & H & Hr); [intros reg q X; subst; eapply NR, nth_error_In; eauto..|].
      assert (r = false) by congruence. subst r.
      destruct (shared_dec x y) as [(q & Q)|Q]; [intros reg q X; subst; eapply NR, nth_error_In; eauto..|exists x, y, q; tauto|]. exfalso. assert (false = true); [|discriminate]. apply Hr. exact Q.
    + destruct H2 as (x & y & q & H2 & H3 & H4 & H5 & H6). exists x, y. split; [exact H2|]. split; [exact H3|].
      destruct (C18_gates x y) as (r & H & Hr); [intros reg q' X; subst; eapply NR, nth_error_In; eauto..|]. destruct r; [|exact H]. exfalso. apply H6. apply Hr; auto.
  - rewrite !map_map. apply map_ext. intros g. rewrite escaped_plain by (intros c Hc; apply special_gate; exact Hc). apply str_replace_notin, special_gate. unfold special. auto.
Qed.

(** A reset next to anything else: nothing can be shown. *)
Theorem C61_reset_refuted : forall prog reg q, In (GReset reg q) prog -> 2 <= length prog -> forall t, gate_graph prog <> Ok t.
Proof.
  intros prog reg q Hr L t H. unfold gate_graph in H. apply bind_ok in H. destruct H as (d & Hd & _).
  destruct (dag_of_inv gate gates_can_commute prog d Hd) as [Si _]. pose proof (s_can _ _ _ _ _ _ Si) as C.
  apply In_nth_error in Hr. destruct Hr as (k & Hk).
  assert (B : forall x, (exists c, gates_can_commute (GReset reg q) x = Ok c) \/ (exists c, gates_can_commute x (GReset reg q) = Ok c) -> False).
  { intros x [(c & X)|(c & X)].
    - discriminate X.
    - unfold gates_can_commute in X. destruct x as [t' b|t' f|cx [t' b|t' f] ax px|reg' t']; discriminate X. }
  destruct k as [|k].
  - destruct prog as [|a [|b prog]]; cbn in L; try lia. apply (B b). left. exact (C 0 1 _ b (Nat.lt_0_succ 0) Hk eq_refl).
  - destruct prog as [|a prog]; [discriminate Hk|]. apply (B a). right. exact (C 0 (S k) a _ (Nat.lt_0_succ k) eq_refl Hk).
Qed.
(** The sign of a rotation is not shown: opposite rotations have the same picture. *)
Theorem C61_sign_refuted : forall q n d, gate_graph [GRZ q (mkFrac n d true)] = gate_graph [GRZ q (mkFrac n d false)].
Proof. reflexivity. Qed.
Print Assumptions C61_sign_refuted.
Example C61_gates_ex : exists t, gate_graph [GControlled 0 (SBasic 1 GX) ControlFirst DedicatedCell; GControlled 0 (SRZ 2 (mkFrac 3 4 false)) ControlFirst DedicatedCell; GBasic 1 GH] = Ok t
  /\ split_on t LF = [lit "digraph DirectedGraph {"; box 0 (lit "cx q[0],q[1];"); box 1 (lit "crz(3*pipi/4) q[0],q[2];"); box 2 (lit "h q[1];"); lit "  0 -> 2;"; lit "}"; []].
Proof. eexists. split; vm_compute; reflexivity. Qed.
Print Assumptions C61_gates.
Print Assumptions C61_reset_refuted.

(** ** Any graph *)

(** The line of a node without text. *)
Definition dot (n : N) : text := lit "  " ++ print_N n ++ lit ";".
(** Whatever was done to a graph, printing it gives one line for each of its nodes, with the text given for it or a bare
    number, one arrow for each of its edges, and nothing else. *)
Theorem C61_graph : forall g contents, made g -> (forall n s, alookup contents n = Some s -> ~ In LF s /\ ~ In ">"%char s) ->
  exists (nodes : list N) (arrows : list (N * N)),
    NoDup nodes /\ (forall n, In n nodes <-> node g n) /\ NoDup arrows /\ (forall a b, In (a, b) arrows <-> edge g a b) /\
    split_on (graph_text g contents None) LF =
      title :: map (fun n => match alookup contents n with Some s => box (N.to_nat n) s | None => dot n end) nodes ++
      map (fun e => arrow (N.to_nat (fst e)) (N.to_nat (snd e))) arrows ++ [lit "}"; []].
Proof.
  intros g contents M C. pose proof (made_inv _ M) as I. set (m := g_out g). assert (KN : NoDup (keys m)) by apply (inv_kout _ I).
  exists (keys m), (pairs m). split; [exact KN|]. split; [intros n; rewrite node_V; unfold V; fold m; rewrite has_In; reflexivity|].
  split; [apply pairs_NoDup; [exact KN|]; intros kv Hk; rewrite <- (get_snd m kv KN Hk); apply (inv_out _ I)|].
  split; [intros a b; rewrite edge_E; apply pairs_In; exact KN|].
  set (f := fun n => match alookup contents n with Some s => box (N.to_nat n) s | None => dot n end).
  set (h := fun e : N * N => arrow (N.to_nat (fst e)) (N.to_nat (snd e))).
  assert (N1 : flat_map (fun kv => node_line (fst kv) (alookup contents (fst kv))) m = flat_map (fun x => x ++ [LF]) (map f (keys m))).
  { rewrite (flat_map_keys (fun k => node_line k (alookup contents k)) m), !flat_map_concat_map, map_map. f_equal. apply map_ext. intros k. unfold f.
    destruct (alookup contents k) as [s|] eqn:X.
    - rewrite <- (N2Nat.id k) at 1. rewrite node_line_box. unfold shown. rewrite str_replace_notin by apply (C k s X). reflexivity.
    - unfold node_line, dot, endl. rewrite <- !app_assoc. reflexivity. }
  assert (N2 : flat_map (fun kv => flat_map (edge_line (fst kv)) (snd kv)) m = flat_map (fun x => x ++ [LF]) (map h (pairs m))).
  { unfold pairs, h. clear. induction m as [|[k l] m IH]; [reflexivity|].
    cbn [flat_map fst snd]. rewrite IH, map_app, flat_map_app. f_equal. rewrite map_map, !flat_map_concat_map, map_map. cbn [fst snd]. f_equal. apply map_ext.
    intros b. rewrite <- edge_line_arrow, !N2Nat.id. reflexivity. }
  set (ls := title :: map f (keys m) ++ map h (pairs m) ++ [lit "}"; []]).
  assert (T : graph_text g contents None = intercalate LF ls).
  { replace ls with ((title :: map f (keys m) ++ map h (pairs m) ++ [lit "}"]) ++ [[]]) by (unfold ls; cbn [app]; now rewrite <- !app_assoc).
    rewrite intercalate_lines. change (title :: ?l) with ([title] ++ l). rewrite !flat_map_app. unfold graph_text. fold m. change text with (list ascii) in *.
    rewrite N1, N2. cbn [flat_map]. unfold title, endl. rewrite ?app_nil_r, <- ?app_assoc. reflexivity. }
  rewrite T. apply split_on_intercalate; [discriminate|discriminate|].
  unfold ls. constructor; [apply lit_LF; vm_compute; reflexivity|]. rewrite !Forall_app. split; [|split].
  - rewrite Forall_map, Forall_forall. intros k _. unfold f. destruct (alookup contents k) as [s|] eqn:X; [apply box_LF, (C k s X)|].
    unfold dot. repeat apply app_LF; try (apply lit_LF; vm_compute; reflexivity). apply print_N_notin. reflexivity.
  - rewrite Forall_map, Forall_forall. intros e _. apply arrow_LF.
  - repeat constructor; [apply lit_LF; vm_compute; reflexivity|intros []].
Qed.
Print Assumptions C61_graph.
Example C61_graph_ex : exists g, foldM g_apply [AddEdge 7 3; AddNode 9; AddEdge 3 12; AddEdge 7 12; RemoveEdge 7 3] g_empty = Ok g /\
  split_on (graph_text g [(9%N, lit "h q[0];")] None) LF =
    [lit "digraph DirectedGraph {"; lit "  3;"; lit "  7;"; box 9 (lit "h q[0];"); lit "  12;"; lit "  3 -> 12;"; lit "  7 -> 12;"; lit "}"; []].
Proof. eexists. split; vm_compute; reflexivity. Qed.
