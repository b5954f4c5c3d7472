(** Proofs about the Boost based search. *)
From Verif Require Import Base TextModel PatchesModel LayoutModel LayoutSpec LayoutProofs SliceModel SliceSpec SliceProofs.
From Verif Require Import InstrSpec InstrProofs RouterModel RouterSpec RouterProofs BoostModel.
Open Scope Z_scope.

(** ** The edges *)

Lemma fold_append : forall A E (f : A -> outcome bool) (P : A -> Prop) (g : A -> E) (bad : Prop) l,
  (forall x, In x l -> (exists b, f x = Ok b /\ (b = true <-> P x)) \/ (f x = Throw LogicError /\ bad)) ->
  forall es, (exists es', foldM (fun es n => do b <- f n ;; Ok (if b : bool then es ++ [g n] else es)) l es = Ok es'
               /\ forall e, In e es' <-> In e es \/ exists n, In n l /\ P n /\ e = g n)
             \/ (foldM (fun es n => do b <- f n ;; Ok (if b : bool then es ++ [g n] else es)) l es = Throw LogicError /\ bad).
Proof.
  intros A E f P g bad l. induction l as [|x l IH]; intros H es.
  - left. exists es. split; [reflexivity|]. intros e. split; [auto|]. intros [X|(n & [] & _)]. exact X.
  - cbn [foldM]. destruct (H x (or_introl eq_refl)) as [(b & Eb & Pb)|[Eb Hb]]; rewrite Eb; cbn [bind]; [|right; auto].
    destruct (IH (fun y Hy => H y (or_intror Hy)) (if b then es ++ [g x] else es)) as [(es' & E' & I')|[E' Hb]]; [left|right; auto].
    exists es'. split; [exact E'|]. intros e. rewrite I'. split.
    + intros [X|(n & N1 & N2)]; [|right; exists n; split; [right; exact N1|exact N2]].
      destruct b; [|auto]. apply in_app_iff in X as [X|[<-|[]]]; [auto|]. right. exists x. split; [left; reflexivity|]. split; [apply Pb; reflexivity|reflexivity].
    + intros [X|(n & [<-|N1] & N2 & N3)]; [left; destruct b; [apply in_app_iff; auto|exact X]| |right; exists n; auto].
      left. apply Pb in N2. subst b e. apply in_app_iff. right. left. reflexivity.
Qed.

Lemma upto_In : forall n z, 0 <= n -> (In z (upto n) <-> 0 <= z <= n).
Proof.
  intros n z Hn. unfold upto. rewrite in_map_iff. split.
  - intros (k & <- & Hk). apply in_seq in Hk. lia.
  - intros H. exists (Z.to_nat z). split; [lia|]. apply in_seq. lia.
Qed.
Lemma all_cells_In : forall far c, 0 <= row far -> 0 <= col far -> (In c (all_cells far) <-> on_lattice far c).
Proof.
  intros far c H1 H2. unfold all_cells. rewrite in_flat_map. unfold on_lattice. split.
  - intros (r & Hr & Hc). apply in_map_iff in Hc as (k & <- & Hk). apply upto_In in Hr, Hk; auto.
  - intros [R C]. exists (row c). split; [apply upto_In; auto|]. apply in_map_iff. exists (col c). split; [destruct c; reflexivity|]. apply upto_In; auto.
Qed.

Record b_ok (q : query) (cyc : bool) : Prop := {
  bk_sized : sized (q_far q) (q_slice q);
  bk_plain : q_cycle q = false;
  bk_src : on_lattice (q_far q) (q_source q);
  bk_tgt : on_lattice (q_far q) (q_target q);
  bk_cyc : cyc = true <-> q_source q = q_target q }.

Definition into_taken (q : query) (u v : nat) : Prop :=
  exists a b, on_lattice (q_far q) a /\ on_lattice (q_far q) b /\ adjacent a b
    /\ tile_at (q_slice q) a = None /\ tile_at (q_slice q) b <> None /\ u = make_vertex q a /\ v = make_vertex q b.
Definition leaving (q : query) (u v : nat) : Prop :=
  exists b, on_lattice (q_far q) b /\ adjacent (q_source q) b /\ shows (q_slice q) (q_source q) b (q_sop q)
    /\ u = make_vertex q (q_source q) /\ v = make_vertex q b.
Definition arriving (q : query) (cyc : bool) (u v : nat) : Prop :=
  exists a, on_lattice (q_far q) a /\ adjacent (q_target q) a /\ shows (q_slice q) (q_target q) a (q_top q)
    /\ u = make_vertex q a /\ v = end_vertex q cyc.
Definition linked (q : query) (cyc : bool) (u v : nat) : Prop := into_taken q u v \/ leaving q u v \/ arriving q cyc u v.

Lemma is_free_spec : forall far s c, sized far s -> on_lattice far c -> exists b, is_free s c = Ok b /\ (b = true <-> tile_at s c = None).
Proof.
  intros far s c Hs Hc. unfold is_free. rewrite (patch_at_ok far) by auto. cbn [bind]. eexists. split; [reflexivity|].
  destruct (tile_at s c); split; congruence.
Qed.

Lemma grid_edges_ok : forall q cyc, b_ok q cyc ->
  exists es, grid_edges q = Ok es /\ forall u v, In (u, v) es <-> into_taken q u v.
Proof.
  intros q cyc Q. pose proof (bk_sized q cyc Q) as Hs. destruct Hs as (F1 & F2 & Hs'). pose proof (bk_sized q cyc Q) as Hs.
  assert (G : forall l es0, (forall c, In c l -> on_lattice (q_far q) c) ->
    exists es, foldM (fun es c => do free <- is_free (q_slice q) c ;; if free : bool then Ok es else
           foldM (fun es n => do f <- is_free (q_slice q) n ;; Ok (if f : bool then es ++ [(make_vertex q n, make_vertex q c)] else es))
                 (neighbours (q_layout q) c) es) l es0 = Ok es
      /\ forall u v, In (u, v) es <-> In (u, v) es0 \/ exists a b, In b l /\ on_lattice (q_far q) a /\ adjacent a b
           /\ tile_at (q_slice q) a = None /\ tile_at (q_slice q) b <> None /\ u = make_vertex q a /\ v = make_vertex q b).
  { induction l as [|c l IH]; intros es0 Hl.
    - exists es0. split; [reflexivity|]. intros u v. split; [auto|]. intros [X|(a & b & [] & _)]. exact X.
    - cbn [foldM]. pose proof (Hl c (or_introl eq_refl)) as Hc.
      destruct (is_free_spec _ _ c Hs Hc) as (fr & -> & Pf). cbn [bind]. destruct fr; cbn [bind].
      + destruct (IH es0 (fun x Hx => Hl x (or_intror Hx))) as (es & -> & I). exists es. split; [reflexivity|].
        intros u v. rewrite I. split.
        * intros [X|(a & b & Hb & X)]; [auto|]. right. exists a, b. split; [right; exact Hb|exact X].
        * intros [X|(a & b & [<-|Hb] & X)]; [auto| |right; exists a, b; auto]. exfalso. apply (proj1 (proj2 (proj2 (proj2 X)))). apply Pf. reflexivity.
      + destruct (fold_append cell (nat * nat) (is_free (q_slice q)) (fun n => tile_at (q_slice q) n = None)
           (fun n => (make_vertex q n, make_vertex q c)) False (neighbours (q_layout q) c)) with (es := es0) as [(es1 & -> & I1)|[_ []]].
        { intros x Hx. left. apply neighbours_iff in Hx as [_ Hx]; [|exact Hc]. apply (is_free_spec (q_far q)); auto. }
        cbn [bind]. destruct (IH es1 (fun x Hx => Hl x (or_intror Hx))) as (es & -> & I). exists es. split; [reflexivity|].
        intros u v. rewrite I, I1. split.
        * intros [[X|(n & N1 & N2 & N3)]|(a & b & Hb & X)]; [auto| |].
          -- right. apply neighbours_iff in N1 as [N1 N1']; [|exact Hc]. injection N3 as -> ->. exists n, c. split; [left; reflexivity|]. split; [exact N1'|].
             split; [apply adjacent_sym; exact N1|]. split; [exact N2|]. split; [|auto]. intros X. apply Pf in X. discriminate.
          -- right. exists a, b. split; [right; exact Hb|exact X].
        * intros [X|(a & b & [<-|Hb] & A1 & A2 & A3 & A4 & -> & ->)]; [auto| |].
          -- left. right. exists a. split; [|auto]. apply neighbours_iff; [exact Hc|]. split; [apply adjacent_sym; exact A2|exact A1].
          -- right. exists a, b. auto 10. }
  destruct (G (all_cells (q_far q)) []) as (es & E & I).
  { intros c Hc. apply all_cells_In in Hc; auto. }
  exists es. split; [exact E|]. intros u v. rewrite I. unfold into_taken. split.
  - intros [[]|(a & b & Hb & X)]. apply all_cells_In in Hb; auto. exists a, b. tauto.
  - intros (a & b & A1 & A2 & X). right. exists a, b. split; [apply all_cells_In; auto|]. auto.
Qed.

Lemma edges_ok : forall q cyc, b_ok q cyc ->
  (exists es, boost_edges q cyc = Ok es /\ forall u v, In (u, v) es <-> linked q cyc u v)
  \/ (boost_edges q cyc = Throw LogicError /\ ~ ops_ok q).
Proof.
  intros q cyc Q. pose proof (bk_sized q cyc Q) as Hs. unfold boost_edges.
  destruct (grid_edges_ok q cyc Q) as (e1 & -> & I1). cbn [bind].
  destruct (fold_append cell (nat * nat) (fun n => has_boundary_of_type (q_slice q) (q_source q) n (q_sop q))
    (fun n => shows (q_slice q) (q_source q) n (q_sop q)) (fun n => (make_vertex q (q_source q), make_vertex q n)) (~ (q_sop q = PX \/ q_sop q = PZ))
    (neighbours (q_layout q) (q_source q))) with (es := e1) as [(e2 & E2 & I2)|[E2 B]].
  { intros x Hx. apply neighbours_iff in Hx as [Hx _]; [|apply (bk_src q cyc Q)]. apply (hb_spec (q_far q)); auto. apply (bk_src q cyc Q). }
  2:{ right. unfold source_edges. rewrite E2. split; [reflexivity|]. intros [X _]. auto. }
  unfold source_edges. rewrite E2. cbn [bind]. unfold target_edges.
  destruct (fold_append cell (nat * nat) (fun n => has_boundary_of_type (q_slice q) (q_target q) n (q_top q))
    (fun n => shows (q_slice q) (q_target q) n (q_top q)) (fun n => (make_vertex q n, end_vertex q cyc)) (~ (q_top q = PX \/ q_top q = PZ))
    (neighbours (q_layout q) (q_target q))) with (es := e2) as [(e3 & E3 & I3)|[E3 B]].
  { intros x Hx. apply neighbours_iff in Hx as [Hx _]; [|apply (bk_tgt q cyc Q)]. apply (hb_spec (q_far q)); auto. apply (bk_tgt q cyc Q). }
  2:{ right. rewrite E3. split; [reflexivity|]. intros [_ X]. auto. }
  left. exists e3. split; [exact E3|]. intros u v. rewrite I3, I2, I1. unfold linked, leaving, arriving. split.
  - intros [[X|(n & N1 & N2 & N3)]|(n & N1 & N2 & N3)]; [auto| |]; injection N3 as -> ->.
    + apply neighbours_iff in N1 as [N1 N1']; [|apply (bk_src q cyc Q)]. right. left. exists n. auto.
    + apply neighbours_iff in N1 as [N1 N1']; [|apply (bk_tgt q cyc Q)]. right. right. exists n. auto.
  - intros [X|[(b & A1 & A2 & A3 & -> & ->)|(a & A1 & A2 & A3 & -> & ->)]]; [auto| |].
    + left. right. exists b. split; [|auto]. apply neighbours_iff; [apply (bk_src q cyc Q)|auto].
    + right. exists a. split; [|auto]. apply neighbours_iff; [apply (bk_tgt q cyc Q)|auto].
Qed.

Lemma graph_size_ge : forall es n, (n <= graph_size n es)%nat.
Proof.
  induction es as [|e es IH]; intros n; cbn; [lia|]. unfold graph_size in IH.
  specialize (IH (Nat.max n (S (Nat.max (fst e) (snd e))))). lia.
Qed.
Lemma graph_size_In : forall es n u v, In (u, v) es -> (u < graph_size n es /\ v < graph_size n es)%nat.
Proof.
  induction es as [|e es IH]; intros n u v H; [destruct H|]. cbn. destruct H as [->|H]; [|apply IH; exact H].
  pose proof (graph_size_ge es (Nat.max n (S (Nat.max u v)))) as X. unfold graph_size in X. cbn [fst snd]. lia.
Qed.

(** ** The search *)

(** From [v] the predecessors lead back to [s]; [l] lists the vertices before [v]. *)
Inductive back (es : list (nat * nat)) (s : nat) (m : list pdata) : nat -> list nat -> Prop :=
| back_here : nth_error m s = Some (mkPD (Some 0%nat) s) -> back es s m s []
| back_from v u l d : nth_error m v = Some (mkPD (Some d) u) -> v <> s -> In (u, v) es -> back es s m u l -> back es s m v (u :: l).

Record b_inv (es : list (nat * nat)) (s n : nat) (m : list pdata) (fr : list nat) : Prop := {
  bi_len : length m = n;
  bi_none : forall v, (v < n)%nat -> cost m v = None -> nth_error m v = Some (mkPD None v);
  bi_some : forall v, known m v -> exists l, back es s m v l;
  bi_src : known m s;
  bi_fr : forall v, In v fr -> known m v;
  bi_closed : forall u v, known m u -> ~ In u fr -> In (u, v) es -> known m v }.

Lemma back_keep : forall es s m m' v l, (forall x p, nth_error m x = Some p -> pd_dist p <> None -> nth_error m' x = Some p) ->
  back es s m v l -> back es s m' v l.
Proof.
  intros es s m m' v l K B. induction B as [H|v u l d H Ne He B IH].
  - constructor. apply K; [exact H|discriminate].
  - econstructor; eauto. apply K; [exact H|discriminate].
Qed.

Lemma known_lt : forall m v, known m v -> (v < length m)%nat.
Proof. intros m v [d H]. eapply cost_lt; eauto. Qed.

Lemma find_ok : forall es s n u m fr v, (forall a b, In (a, b) es -> (a < n /\ b < n)%nat) -> In (u, v) es ->
  length m = n -> (forall x, (x < n)%nat -> cost m x = None -> nth_error m x = Some (mkPD None x)) ->
  (forall x, known m x -> exists l, back es s m x l) -> known m s -> known m u -> (forall x, In x fr -> known m x) ->
  exists m' fr', find_vertex u (m, fr) v = Ok (m', fr') /\ length m' = n
    /\ (forall x, (x < n)%nat -> cost m' x = None -> nth_error m' x = Some (mkPD None x))
    /\ (forall x, known m' x -> exists l, back es s m' x l) /\ known m' v /\ (forall x, known m x -> known m' x)
    /\ (forall x, In x fr' -> known m' x) /\ incl fr fr' /\ (forall x, known m' x -> known m x \/ In x fr')
    /\ (none_count m' + length fr' = none_count m + length fr)%nat.
Proof.
  intros es s n u m fr v Hb He Hl Hn Hs Ks Ku Hf. destruct (Hb _ _ He) as [_ Hv]. unfold find_vertex, idx.
  destruct (nth_error m v) as [p|] eqn:E; [|apply nth_error_None in E; lia]. cbn [bind].
  destruct (pd_dist p) as [d|] eqn:Ed.
  - exists m, fr. split; [reflexivity|]. repeat split; auto.
    + exists d. unfold cost. rewrite E. exact Ed.
    + apply incl_refl.
  - set (m' := set_row m v (mkPD (Some 0%nat) u)).
    assert (Cv : cost m v = None) by (unfold cost; rewrite E; exact Ed).
    assert (Ne : forall x, known m x -> x <> v) by (intros x [dx Hx] ->; congruence).
    assert (C0 : cost m' v = Some 0%nat) by (unfold m'; rewrite cost_same by lia; reflexivity).
    assert (C1 : forall x, x <> v -> cost m' x = cost m x) by (intros x Hx; unfold m'; apply cost_other; auto).
    assert (K : forall x y, nth_error m x = Some y -> pd_dist y <> None -> nth_error m' x = Some y).
    { intros x y Hx Hy. unfold m'. rewrite set_row_other; [exact Hx|]. intros ->. congruence. }
    exists m', (fr ++ [v]). split; [reflexivity|]. split; [unfold m'; rewrite set_row_length; exact Hl|].
    split; [|split; [|split; [|split; [|split; [|split; [|split]]]]]].
    + intros x Hx Hc. destruct (Nat.eq_dec x v) as [->|Nx]; [congruence|]. unfold m'. rewrite set_row_other by auto. apply Hn; auto. rewrite <- C1; auto.
    + intros x [dx Hx]. destruct (Nat.eq_dec x v) as [->|Nx].
      * destruct (Hs u Ku) as (l & Bl). exists (u :: l). econstructor; [unfold m'; apply set_row_same; lia|apply not_eq_sym, Ne; exact Ks|exact He|].
        eapply back_keep; eauto.
      * destruct (Hs x) as (l & Bl); [exists dx; rewrite <- C1; auto|]. exists l. eapply back_keep; eauto.
    + exists 0%nat. exact C0.
    + intros x Kx. pose proof (Ne x Kx) as Nx. destruct Kx as [dx Hx]. exists dx. rewrite C1; auto.
    + intros x Hx. apply in_app_iff in Hx as [Hx|[<-|[]]]; [|exists 0%nat; exact C0].
      pose proof (Hf x Hx) as Kx. pose proof (Ne x Kx). destruct Kx as [dx Hd]. exists dx. rewrite C1; auto.
    + apply incl_appl, incl_refl.
    + intros x [dx Hx]. destruct (Nat.eq_dec x v) as [->|Nx]; [right; apply in_app_iff; right; left; reflexivity|left; exists dx; rewrite <- C1; auto].
    + rewrite app_length. cbn [length]. unfold m'. rewrite (none_count_fill m v p 0 u E Ed). lia.
Qed.

Lemma find_all_ok : forall es s n u vs m fr, (forall a b, In (a, b) es -> (a < n /\ b < n)%nat) -> (forall v, In v vs -> In (u, v) es) ->
  length m = n -> (forall x, (x < n)%nat -> cost m x = None -> nth_error m x = Some (mkPD None x)) ->
  (forall x, known m x -> exists l, back es s m x l) -> known m s -> known m u -> (forall x, In x fr -> known m x) ->
  exists m' fr', foldM (find_vertex u) vs (m, fr) = Ok (m', fr') /\ length m' = n
    /\ (forall x, (x < n)%nat -> cost m' x = None -> nth_error m' x = Some (mkPD None x))
    /\ (forall x, known m' x -> exists l, back es s m' x l) /\ (forall v, In v vs -> known m' v) /\ (forall x, known m x -> known m' x)
    /\ (forall x, In x fr' -> known m' x) /\ incl fr fr' /\ (forall x, known m' x -> known m x \/ In x fr')
    /\ (none_count m' + length fr' = none_count m + length fr)%nat.
Proof.
  intros es s n u vs. induction vs as [|v vs IH]; intros m fr Hb He Hl Hn Hs Ks Ku Hf.
  - exists m, fr. split; [reflexivity|]. repeat split; auto. intros x []. apply incl_refl.
  - cbn [foldM]. destruct (find_ok es s n u m fr v Hb (He v (or_introl eq_refl)) Hl Hn Hs Ks Ku Hf) as (m1 & f1 & -> & L1 & N1 & S1 & K1 & M1 & F1 & I1 & A1 & C1).
    cbn [bind]. destruct (IH m1 f1 Hb (fun x Hx => He x (or_intror Hx)) L1 N1 S1 (M1 _ Ks) (M1 _ Ku) F1) as (m2 & f2 & -> & L2 & N2 & S2 & K2 & M2 & F2 & I2 & A2 & C2).
    exists m2, f2. split; [reflexivity|]. split; [exact L2|]. split; [exact N2|]. split; [exact S2|]. split; [|split; [|split; [exact F2|split; [|split]]]].
    + intros x [<-|Hx]; auto.
    + auto.
    + eapply incl_tran; eauto.
    + intros x Kx. destruct (A2 x Kx) as [Y|Y]; [|auto]. destruct (A1 x Y) as [Z|Z]; [auto|right; apply I2; exact Z].
    + lia.
Qed.

Lemma flood_ok : forall es s n pick fuel m fr, valid_pick pick -> (forall a b, In (a, b) es -> (a < n /\ b < n)%nat) ->
  b_inv es s n m fr -> (none_count m + length fr <= fuel)%nat -> exists m', flood fuel es pick m fr = Ok m' /\ b_inv es s n m' [].
Proof.
  intros es s n pick fuel. induction fuel as [|fuel IH]; intros m fr Hp Hb B Hf.
  - destruct fr; [exists m; split; [reflexivity|exact B]|cbn in Hf; lia].
  - destruct fr as [|x fr]; [exists m; split; [reflexivity|exact B]|].
    destruct (pop_ok pick m (x :: fr) Hp) as (u & l1 & l2 & E & Ep & _); [discriminate|].
    cbn [flood]. rewrite Ep. cbn [bind]. rewrite E in B, Hf.
    assert (Ku : known m u) by (apply (bi_fr _ _ _ _ _ B); apply in_app_iff; right; left; reflexivity).
    destruct (find_all_ok es s n u (map snd (filter (fun e => (fst e =? u)%nat) es)) m (l1 ++ l2) Hb) as (m1 & f1 & E1 & L1 & N1 & S1 & K1 & M1 & F1 & I1 & A1 & C1);
      [|apply (bi_len _ _ _ _ _ B)|apply (bi_none _ _ _ _ _ B)|apply (bi_some _ _ _ _ _ B)|apply (bi_src _ _ _ _ _ B)|exact Ku| |].
    { intros v Hv. apply in_map_iff in Hv as ([a b] & <- & H). apply filter_In in H as [H1 H2]. cbn in H2 |- *. apply Nat.eqb_eq in H2. subst a. exact H1. }
    { intros y Hy. apply (bi_fr _ _ _ _ _ B). apply in_app_iff in Hy. apply in_app_iff. cbn. tauto. }
    rewrite E1. cbn [bind]. apply IH; auto.
    + constructor; [exact L1|exact N1|exact S1|apply M1, B|exact F1|].
      { intros a v Ka Na He. destruct (Nat.eq_dec a u) as [->|Nu].
        { apply K1. apply in_map_iff. exists (u, v). split; [reflexivity|]. apply filter_In. cbn. rewrite Nat.eqb_refl. auto. }
        destruct (A1 a Ka) as [Y|Y]; [|contradiction]. apply M1. apply (bi_closed _ _ _ _ _ B a v Y); auto.
        intros X. apply in_app_iff in X as [X|[X|X]]; [|congruence|]; apply Na, I1, in_app_iff; auto. }
    + rewrite app_length in Hf, C1. cbn [length] in Hf. lia.
Qed.

Lemma start_ok : forall es s n, (s < n)%nat -> b_inv es s n (set_row (map (mkPD None) (seq 0 n)) s (mkPD (Some 0%nat) s)) [s]
  /\ none_count (set_row (map (mkPD None) (seq 0 n)) s (mkPD (Some 0%nat) s)) = (n - 1)%nat.
Proof.
  intros es s n Hs. set (m0 := map (mkPD None) (seq 0 n)). set (m := set_row m0 s (mkPD (Some 0%nat) s)).
  assert (L0 : length m0 = n) by (unfold m0; rewrite map_length, seq_length; reflexivity).
  assert (N0 : forall v, (v < n)%nat -> nth_error m0 v = Some (mkPD None v)).
  { intros v Hv. unfold m0. rewrite nth_error_map. rewrite (nth_error_nth' (seq 0 n) 0%nat) by (rewrite seq_length; exact Hv). rewrite seq_nth by exact Hv. reflexivity. }
  assert (Es : nth_error m s = Some (mkPD (Some 0%nat) s)) by (apply set_row_same; lia).
  assert (Eo : forall v, v <> s -> nth_error m v = nth_error m0 v) by (intros v Hv; apply set_row_other; auto).
  assert (Kn : forall v, known m v -> v = s).
  { intros v [d H]. destruct (Nat.eq_dec v s) as [|Nv]; [auto|]. unfold cost in H. rewrite Eo in H by auto.
    destruct (Nat.lt_ge_cases v n) as [X|X]; [rewrite N0 in H by auto; discriminate|]. rewrite (proj2 (nth_error_None m0 v)) in H by lia. discriminate. }
  assert (Ks : known m s) by (exists 0%nat; unfold cost; rewrite Es; reflexivity).
  split.
  - constructor.
    + unfold m. rewrite set_row_length. exact L0.
    + intros v Hv Hc. destruct (Nat.eq_dec v s) as [->|Nv]; [unfold cost in Hc; rewrite Es in Hc; discriminate|]. rewrite Eo by auto. auto.
    + intros v Kv. apply Kn in Kv. subst v. exists []. constructor. exact Es.
    + exact Ks.
    + intros v [<-|[]]. exact Ks.
    + intros u v Ku Nu _. apply Kn in Ku. subst u. exfalso. apply Nu. left. reflexivity.
  - assert (X : none_count m0 = n).
    { unfold none_count, m0. clear. generalize 0%nat. induction n as [|n IH]; intros k; cbn; [reflexivity|]. f_equal. apply IH. }
    pose proof (none_count_fill m0 s (mkPD None s) 0 s (N0 s Hs) eq_refl) as Y. fold m in Y. lia.
Qed.

(** ** The shape of what it finds *)

Lemma not_next_to_self : forall c, ~ adjacent c c.
Proof. intros c H. unfold adjacent in H. lia. Qed.

Section Shape.
Variables (q : query) (cyc : bool).
Hypothesis Q : b_ok q cyc.
Let s := q_slice q.
Let src := q_source q.
Let tgt := q_target q.
Let far := q_far q.

Lemma bvertex_inj : forall a b, on_lattice far a -> on_lattice far b -> make_vertex q a = make_vertex q b -> a = b.
Proof. intros a b Ha Hb H. rewrite <- (cell_of_vertex q a), <- (cell_of_vertex q b), H; auto. Qed.

Lemma end_not_src : end_vertex q cyc <> make_vertex q src.
Proof.
  unfold end_vertex. destruct cyc eqn:Ec.
  - pose proof (vertex_lt q src (bk_src _ _ Q)). lia.
  - intros X. apply bvertex_inj in X; [|apply (bk_tgt _ _ Q)|apply (bk_src _ _ Q)].
    assert (Y : false = true); [|discriminate]. apply (bk_cyc _ _ Q). symmetry. exact X.
Qed.

(** The ways to get from the source to a vertex. *)
Inductive way : nat -> list cell -> Prop :=
| way_leave x : on_lattice far x -> adjacent src x -> shows s src x (q_sop q) -> way (make_vertex q x) []
| way_direct : cyc = false -> adjacent src tgt -> shows s tgt src (q_top q) -> way (end_vertex q cyc) []
| way_through x y : on_lattice far x -> adjacent src x -> shows s src x (q_sop q) -> tile_at s x = None ->
    on_lattice far y -> adjacent x y -> tile_at s y <> None -> y <> src -> way (make_vertex q y) [x]
| way_arrive x : on_lattice far x -> adjacent src x -> shows s src x (q_sop q) -> adjacent tgt x -> shows s tgt x (q_top q) -> x <> src ->
    way (end_vertex q cyc) [x]
| way_two x y : on_lattice far x -> adjacent src x -> shows s src x (q_sop q) -> tile_at s x = None ->
    on_lattice far y -> adjacent x y -> tile_at s y <> None -> y <> src -> adjacent tgt y -> shows s tgt y (q_top q) ->
    way (end_vertex q cyc) [y; x].

Lemma shows_taken : forall c n o, shows s c n o -> tile_at s c <> None.
Proof. intros c n o (p & d & t & H & _). congruence. Qed.

Lemma end_no_exit : forall a, on_lattice far a -> make_vertex q a = end_vertex q cyc -> cyc = false /\ a = tgt.
Proof.
  intros a Ha E. unfold end_vertex in E. destruct cyc eqn:Ec.
  - pose proof (vertex_lt q a Ha). lia.
  - split; [reflexivity|]. apply bvertex_inj; auto. apply (bk_tgt _ _ Q).
Qed.

Hypothesis Ht : tile_at s tgt <> None.
Hypothesis Hs : tile_at s src <> None.

Lemma back_way : forall es m v l, (forall u v, In (u, v) es <-> linked q cyc u v) -> back es (make_vertex q src) m v l -> v <> make_vertex q src ->
  exists l', l = map (make_vertex q) l' ++ [make_vertex q src] /\ way v l' .
Proof.
  intros es m v l He B. induction B as [H|v u l d H Ne Hu B IH]; intros Hv; [contradiction|].
  apply He in Hu. destruct (Nat.eq_dec u (make_vertex q src)) as [->|Nu].
  - assert (El : l = []) by (inversion B as [X|? ? ? ? ? X]; [reflexivity|exfalso; apply X; reflexivity]). subst l.
    exists []. split; [reflexivity|]. destruct Hu as [(a & b & A1 & A2 & A3 & A4 & A5 & A6 & A7)|[(b & A1 & A2 & A3 & A4 & A5)|(a & A1 & A2 & A3 & A4 & A5)]].
    + exfalso. apply bvertex_inj in A6; [|apply (bk_src _ _ Q)|exact A1]. apply Hs. rewrite A6. exact A4.
    + subst v. constructor; auto.
    + apply bvertex_inj in A4; [|apply (bk_src _ _ Q)|exact A1]. subst v. rewrite <- A4 in A2, A3.
      apply way_direct; [|apply adjacent_sym; exact A2|exact A3].
      apply not_true_is_false. intros X. apply (bk_cyc _ _ Q) in X. fold src in X. rewrite X in A2. exact (not_next_to_self _ A2).
  - destruct (IH Nu) as (l' & -> & Wy). clear IH B H.
    destruct Hu as [(a & b & A1 & A2 & A3 & A4 & A5 & A6 & A7)|[(b & A1 & A2 & A3 & A4 & A5)|(a & A1 & A2 & A3 & A4 & A5)]].
    + (* from a free tile *)
      assert (b <> src) by (intros ->; congruence).
      assert (l' = [] /\ adjacent src a /\ shows s src a (q_sop q)) as (-> & B1 & B2).
      { subst u. inversion Wy as [x X1 X2 X3 X4|X1 X2 X3 X4|x y X1 X2 X3 X4 X5 X6 X7 X8 X9|x X1 X2 X3 X4 X5 X6 X7|x y X1 X2 X3 X4 X5 X6 X7 X8 X9 X10 X11]; subst.
        - apply bvertex_inj in X4; auto. subst x. auto.
        - exfalso. symmetry in X4. apply end_no_exit in X4 as [_ Xe]; auto. apply Ht. rewrite <- Xe. exact A4.
        - exfalso. apply bvertex_inj in X9; auto. subst y. contradiction.
        - exfalso. match goal with X : end_vertex q cyc = _ |- _ => symmetry in X; apply end_no_exit in X as [_ Xe]; auto; apply Ht; rewrite <- Xe; exact A4 end.
        - exfalso. match goal with X : end_vertex q cyc = _ |- _ => symmetry in X; apply end_no_exit in X as [_ Xe]; auto; apply Ht; rewrite <- Xe; exact A4 end. }
      exists [a]. subst u v. split; [reflexivity|]. apply way_through; auto.
    + contradiction.
    + (* to the target *)
      assert (Na : a <> src) by congruence.
      subst u v. inversion Wy as [x X1 X2 X3 X4|X1 X2 X3 X4|x y X1 X2 X3 X4 X5 X6 X7 X8 X9|x X1 X2 X3 X4 X5 X6 X7|x y X1 X2 X3 X4 X5 X6 X7 X8 X9 X10 X11]; subst.
      * apply bvertex_inj in X4; auto. subst x. exists [a]. split; [reflexivity|]. apply way_arrive; auto.
      * exfalso. symmetry in X4. apply end_no_exit in X4 as [_ Xe]; auto. rewrite Xe in A2. exact (not_next_to_self _ A2).
      * apply bvertex_inj in X9; auto. subst y. exists [a; x]. split; [reflexivity|]. eapply way_two; eauto.
      * exfalso. match goal with X : end_vertex q cyc = _ |- _ => symmetry in X; apply end_no_exit in X as [_ Xe]; auto end. rewrite Xe in A2. exact (not_next_to_self _ A2).
      * exfalso. match goal with X : end_vertex q cyc = _ |- _ => symmetry in X; apply end_no_exit in X as [_ Xe]; auto end. rewrite Xe in A2. exact (not_next_to_self _ A2).
Qed.

(** Everything that can be got to is found. *)
Lemma way_known : forall es n m v l, (forall u v, In (u, v) es <-> linked q cyc u v) -> b_inv es (make_vertex q src) n m [] -> way v l -> known m v.
Proof.
  intros es n m v l He B Wy.
  assert (C : forall u v, known m u -> linked q cyc u v -> known m v).
  { intros u v' Ku Hl. apply (bi_closed _ _ _ _ _ B u v' Ku); [intros []|]. apply He. exact Hl. }
  pose proof (bi_src _ _ _ _ _ B) as Ks.
  assert (L : forall x, on_lattice far x -> adjacent src x -> shows s src x (q_sop q) -> known m (make_vertex q x)).
  { intros x X1 X2 X3. apply (C _ _ Ks). right. left. exists x. auto. }
  assert (T : forall x y, known m (make_vertex q x) -> on_lattice far x -> tile_at s x = None -> on_lattice far y -> adjacent x y -> tile_at s y <> None -> known m (make_vertex q y)).
  { intros x y Kx X1 X2 X3 X4 X5. apply (C _ _ Kx). left. exists x, y. auto 8. }
  assert (A : forall x, known m (make_vertex q x) -> on_lattice far x -> adjacent tgt x -> shows s tgt x (q_top q) -> known m (end_vertex q cyc)).
  { intros x Kx X1 X2 X3. apply (C _ _ Kx). right. right. exists x. auto. }
  destruct Wy; eauto.
  apply (A src); auto; [apply (bk_src _ _ Q)|apply adjacent_sym; auto].
Qed.
End Shape.

(** ** The route *)

Lemma back_trace : forall q es s m v l, (forall a b, In (a, b) es -> a <> b) -> back es s m v l ->
  forall fuel prec p, nth_error m v = Some p -> (length l <= fuel)%nat ->
  trace fuel q m prec v (pd_pred p) = Ok (route_tiles q prec (v :: l), s).
Proof.
  intros q es s m v l Ne B. induction B as [H|v u l d H Hv He B IH]; intros fuel prec p Hp Hf.
  - assert (p = mkPD (Some 0%nat) s) by congruence. subst p. cbn [pd_pred]. destruct fuel; cbn [trace]; rewrite Nat.eqb_refl; reflexivity.
  - assert (p = mkPD (Some d) u) by congruence. subst p. cbn [pd_pred]. destruct fuel as [|fuel]; [cbn in Hf; lia|]. cbn [trace].
    assert ((v =? u)%nat = false) as -> by (apply Nat.eqb_neq; apply not_eq_sym, (Ne _ _ He)).
    assert (Hu : exists p, nth_error m u = Some p) by (inversion B; eauto). destruct Hu as [p Hu].
    unfold idx. rewrite Hu. cbn [bind]. rewrite (IH fuel v p Hu) by (cbn in Hf; lia). reflexivity.
Qed.

Lemma linked_ne : forall q cyc u v, b_ok q cyc -> linked q cyc u v -> u <> v.
Proof.
  intros q cyc u v Q H E. subst v. destruct H as [(a & b & A1 & A2 & A3 & A4 & A5 & A6 & A7)|[(b & A1 & A2 & A3 & A4 & A5)|(a & A1 & A2 & A3 & A4 & A5)]].
  - assert (a = b) by (eapply bvertex_inj; eauto; congruence). subst b. exact (not_next_to_self _ A3).
  - assert (q_source q = b) by (eapply bvertex_inj; eauto; [apply (bk_src _ _ Q)|congruence]). subst b. exact (not_next_to_self _ A2).
  - assert (E : make_vertex q a = end_vertex q cyc) by congruence. apply end_no_exit in E as [_ E]; auto. subst a. exact (not_next_to_self _ A2).
Qed.

Lemma boost_search_ok : forall q cyc pick, b_ok q cyc -> valid_pick pick -> q_edpc q = false ->
  tile_at (q_slice q) (q_source q) <> None -> tile_at (q_slice q) (q_target q) <> None ->
  match boost_search q cyc pick with
  | Ok (Some reg) => way q cyc (end_vertex q cyc) (map sc_cell (rg_cells reg)) /\ rg_id reg = None
      /\ all_joined (join_mark false) (q_target q) (rg_cells reg) (q_source q)
  | Ok None => forall l, ~ way q cyc (end_vertex q cyc) l
  | Throw e => e = LogicError /\ ~ ops_ok q
  | UB u => u = UBIndex /\ cyc = true
      /\ forall x, on_lattice (q_far q) x -> adjacent (q_target q) x -> ~ shows (q_slice q) (q_target q) x (q_top q)
  | Fuel => False
  end.
Proof.
  intros q cyc pick Q Hp Ed Ts Tt. unfold boost_search.
  destruct (edges_ok q cyc Q) as [(es & -> & He)|[-> B]]; cbn [bind]; [|auto]. cbv zeta.
  set (n := graph_size (num_vertices q) es). set (s := make_vertex q (q_source q)).
  assert (Hn : (num_vertices q <= n)%nat) by apply graph_size_ge.
  assert (Hsn : (s < n)%nat) by (pose proof (vertex_lt q (q_source q) (bk_src _ _ Q)); unfold s; lia).
  assert (Hb : forall a b, In (a, b) es -> (a < n /\ b < n)%nat) by (intros a b H; apply graph_size_In; exact H).
  assert (Hne : forall a b, In (a, b) es -> a <> b) by (intros a b H; apply (linked_ne q cyc a b Q), He, H).
  destruct (start_ok es s n Hsn) as [B0 C0].
  destruct (flood_ok es s n pick (S n) _ _ Hp Hb B0) as (m & -> & B); [rewrite C0; cbn [length]; lia|]. cbn [bind].
  set (T := end_vertex q cyc).
  assert (Way : forall l, way q cyc T l -> known m T) by (intros l W; apply (way_known q cyc Q es n m T l He B W)).
  destruct (nth_error m T) as [p|] eqn:ET.
  2:{ (* there is no such vertex *)
      unfold idx at 1. rewrite ET. cbn [bind]. split; [reflexivity|]. apply nth_error_None in ET. rewrite (bi_len _ _ _ _ _ B) in ET.
      assert (Ec : cyc = true).
      { apply not_false_is_true. intros Ec. unfold T, end_vertex in ET. rewrite Ec in ET. pose proof (vertex_lt q (q_target q) (bk_tgt _ _ Q)). lia. }
      split; [exact Ec|]. intros x X1 X2 X3. assert (X : In (make_vertex q x, T) es) by (apply He; right; right; exists x; auto).
      apply Hb in X. lia. }
  unfold idx at 1. rewrite ET. cbn [bind].
  assert (HT : (T < n)%nat) by (rewrite <- (bi_len _ _ _ _ _ B); apply nth_error_Some; congruence).
  destruct (pd_dist p) as [d|] eqn:Ep.
  - (* found *)
    assert (KT : known m T) by (exists d; unfold cost; rewrite ET; exact Ep).
    destruct (bi_some _ _ _ _ _ B T KT) as (l & Bk).
    assert (NT : T <> s) by (apply end_not_src; exact Q).
    destruct (back_way q cyc Q Tt Ts es m T l He Bk NT) as (l' & El & W).
    inversion Bk as [X|v u l0 d0 H1 H2 H3 H4]; [congruence|]. subst v l.
    assert (p = mkPD (Some d0) u) by congruence. subst p. cbn [pd_pred].
    assert (Hu : exists pu, nth_error m u = Some pu) by (inversion H4; eauto). destruct Hu as [pu Hu].
    unfold idx. rewrite Hu. cbn [bind].
    assert (Hlen : (length l' <= 2)%nat) by (inversion W; cbn; lia).
    assert (Hl0 : length l0 = length l').
    { apply (f_equal (@length nat)) in H0. rewrite app_length, map_length in H0. cbn in H0. lia. }
    assert (Hn2 : (length l' <= n)%nat).
    { destruct l' as [|y [|x [|]]]; cbn in Hlen |- *; lia. }
    rewrite (back_trace q es s m u l0 Hne H4 (S n) _ pu Hu) by lia. cbn [bind]. rewrite Nat.eqb_refl.
    assert (CT : cell_of q (make_vertex q (q_target q)) = q_target q) by (apply cell_of_vertex, (bk_tgt _ _ Q)).
    assert (CS : cell_of q s = q_source q) by (apply cell_of_vertex, (bk_src _ _ Q)).
    assert (Mk : route_mark (q_edpc q) = join_mark false) by (rewrite Ed; reflexivity).
    cbn [rg_cells rg_id]. rewrite H0.
    assert (O : Forall (on_lattice (q_far q)) l') by (inversion W; repeat (apply Forall_cons; [assumption|]); apply Forall_nil).
    pose proof (bk_tgt _ _ Q) as Ot. pose proof (bk_src _ _ Q) as Os.
    destruct l' as [|y [|x [|]]]; [| | |cbn in Hlen; lia]; cbn [map app route_tiles].
    + split; [exact W|]. split; [reflexivity|exact I].
    + inversion O as [|? ? O1 _]; subst. rewrite (cell_of_vertex q y O1), CT. fold s. rewrite CS.
      destruct (route_tile_ok q (q_target q) y (q_source q) O1 Ot Os) as [R1 R2]. cbn [map all_joined]. rewrite R1, <- Mk. auto.
    + inversion O as [|? ? O1 O']; subst. inversion O' as [|? ? O2 _]; subst. rewrite (cell_of_vertex q y O1), (cell_of_vertex q x O2), CT. fold s. rewrite CS.
      destruct (route_tile_ok q (q_target q) y x O1 Ot O2) as [R1 R2]. destruct (route_tile_ok q y x (q_source q) O2 O1 Os) as [R3 R4].
      cbn [map all_joined]. rewrite R1, R3, <- Mk. auto.
  - (* not found *)
    assert (Cn : cost m T = None) by (unfold cost; rewrite ET; exact Ep).
    rewrite (bi_none _ _ _ _ _ B T HT Cn) in ET. assert (p = mkPD None T) by congruence. subst p. cbn [pd_pred].
    unfold idx. rewrite (bi_none _ _ _ _ _ B T HT Cn). cbn [bind pd_pred trace]. rewrite Nat.eqb_refl. cbn [bind].
    assert ((T =? s)%nat = false) as -> by (apply Nat.eqb_neq, end_not_src; exact Q).
    intros l W. destruct (Way l W) as [d Hd]. congruence.
Qed.
