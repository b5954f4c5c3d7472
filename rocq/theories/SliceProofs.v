From Coq Require Import Sorted.
From Verif Require Import Base PatchesModel InstrProofs LayoutModel LayoutSpec LayoutProofs SliceModel SliceSpec.
Open Scope Z_scope.

(** ** Reading and writing tiles *)

Definition put (s : slice) (c : cell) (t : tile) : slice :=
  with_cells s (match nth_error (s_cells s) (Z.to_nat (row c)) with
                | Some r => set_row (s_cells s) (Z.to_nat (row c)) (set_row r (Z.to_nat (col c)) t)
                | None => s_cells s
                end).

Lemma set_row_length : forall A (l : list A) i x, length (set_row l i x) = length l.
Proof. induction l as [|a l IH]; intros [|i] x; cbn; auto. Qed.

Lemma set_row_same : forall A (l : list A) i x, (i < length l)%nat -> nth_error (set_row l i x) i = Some x.
Proof. induction l as [|a l IH]; intros [|i] x H; cbn in *; try lia; auto. apply IH; lia. Qed.

Lemma set_row_other : forall A (l : list A) i j x, i <> j -> nth_error (set_row l i x) j = nth_error l j.
Proof. induction l as [|a l IH]; intros [|i] [|j] x H; cbn in *; try congruence; auto. Qed.

Lemma set_row_id : forall A (l : list A) i x, nth_error l i = Some x -> set_row l i x = l.
Proof. induction l as [|a l IH]; intros [|i] x H; cbn in *; try congruence. f_equal; auto. Qed.

Lemma Forall_set_row : forall A (P : A -> Prop) l i x, Forall P l -> P x -> Forall P (set_row l i x).
Proof.
  induction l as [|a l IH]; intros [|i] x H Hx; cbn; auto; inversion H; subst; constructor; auto.
Qed.

Lemma sized_row : forall far s i, sized far s -> 0 <= i <= row far ->
  exists r, nth_error (s_cells s) (Z.to_nat i) = Some r /\ Z.of_nat (length r) = col far + 1.
Proof.
  intros far s i [H0 [H1 [H2 H3]]] Hi.
  destruct (nth_error (s_cells s) (Z.to_nat i)) as [r|] eqn:E.
  - exists r. split; auto. rewrite Forall_forall in H3. apply H3. eapply nth_error_In; eauto.
  - apply nth_error_None in E. lia.
Qed.

Lemma patch_at_ok : forall far s c, sized far s -> on_lattice far c -> patch_at s c = Ok (tile_at s c).
Proof.
  intros far s c Hs [Hr Hc]. destruct (sized_row far s (row c) Hs Hr) as [r [Er Lr]].
  unfold patch_at, tile_at, at_z, at_, bind.
  destruct (row c <? 0) eqn:E1; [lia|]. rewrite Er.
  destruct (col c <? 0) eqn:E2; [lia|]. cbn [orb].
  destruct (nth_error r (Z.to_nat (col c))) eqn:E; auto.
  apply nth_error_None in E. lia.
Qed.

Lemma patch_at_off : forall far s c, sized far s -> ~ on_lattice far c -> patch_at s c = Throw OutOfRange.
Proof.
  intros far s c [H0 [H1 [H2 H3]]] Hn. unfold patch_at, at_z, at_, bind.
  destruct (row c <? 0) eqn:E1; auto.
  destruct (nth_error (s_cells s) (Z.to_nat (row c))) as [r|] eqn:E; auto.
  assert (Hl : Z.of_nat (length r) = col far + 1)
    by (rewrite Forall_forall in H3; apply H3; eapply nth_error_In; eauto).
  assert (Hi : (Z.to_nat (row c) < length (s_cells s))%nat) by (apply nth_error_Some; congruence).
  destruct (col c <? 0) eqn:E2; auto.
  destruct (nth_error r (Z.to_nat (col c))) eqn:E3; auto.
  assert ((Z.to_nat (col c) < length r)%nat) by (apply nth_error_Some; congruence).
  exfalso. apply Hn. unfold on_lattice. lia.
Qed.

Lemma patch_at_inv : forall far s c t, sized far s -> patch_at s c = Ok t ->
  on_lattice far c /\ t = tile_at s c.
Proof.
  intros far s c t Hs H.
  assert (D : on_lattice far c \/ ~ on_lattice far c) by (unfold on_lattice; lia).
  destruct D as [D|D].
  - rewrite (patch_at_ok far) in H by auto. split; congruence.
  - rewrite (patch_at_off far) in H by auto. discriminate.
Qed.

Lemma tile_off : forall far s c, sized far s -> ~ on_lattice far c -> tile_at s c = None.
Proof.
  intros far s c Hs Hn. pose proof (patch_at_off far s c Hs Hn) as H.
  unfold patch_at, tile_at, at_z, at_, bind in *.
  destruct (row c <? 0); cbn; auto.
  destruct (nth_error (s_cells s) (Z.to_nat (row c))).
  - destruct (col c <? 0); auto. destruct (nth_error l (Z.to_nat (col c))); congruence.
  - destruct (col c <? 0); auto.
Qed.

Lemma tile_on : forall far s c p, sized far s -> tile_at s c = Some p -> on_lattice far c.
Proof.
  intros far s c p Hs H.
  assert (D : on_lattice far c \/ ~ on_lattice far c) by (unfold on_lattice; lia).
  destruct D as [D|D]; auto. rewrite (tile_off far) in H by auto. discriminate.
Qed.

Lemma set_patch_ok : forall far s c t, sized far s -> on_lattice far c -> set_patch s c t = Ok (put s c t).
Proof.
  intros far s c t Hs [Hr Hc]. destruct (sized_row far s (row c) Hs Hr) as [r [Er Lr]].
  unfold set_patch, put, at_z, at_, bind.
  destruct (row c <? 0) eqn:E1; [lia|]. rewrite Er.
  destruct (col c <? 0) eqn:E2; [lia|].
  destruct (nth_error r (Z.to_nat (col c))) eqn:E; auto.
  apply nth_error_None in E. lia.
Qed.

Lemma set_patch_inv : forall far s c t s', sized far s -> set_patch s c t = Ok s' ->
  on_lattice far c /\ s' = put s c t.
Proof.
  intros far s c t s' Hs H.
  assert (D : on_lattice far c \/ ~ on_lattice far c) by (unfold on_lattice; lia).
  destruct D as [D|D].
  - rewrite (set_patch_ok far) in H by auto. split; congruence.
  - pose proof (patch_at_off far s c Hs D) as Ho.
    unfold set_patch, patch_at, bind in *.
    destruct (at_z (s_cells s) (row c)); try discriminate.
    destruct (at_z a (col c)); discriminate.
Qed.

Lemma sized_put : forall far s c t, sized far s -> sized far (put s c t).
Proof.
  intros far s c t [H0 [H1 [H2 H3]]]. unfold sized, put, with_cells. cbn [s_cells].
  split; [auto|]. split; [auto|].
  destruct (nth_error (s_cells s) (Z.to_nat (row c))) as [r|] eqn:E; [|split; auto].
  rewrite set_row_length. split; [auto|].
  apply Forall_set_row; auto. rewrite set_row_length.
  rewrite Forall_forall in H3. apply H3. eapply nth_error_In; eauto.
Qed.

Lemma tile_put : forall far s c t c', sized far s -> on_lattice far c ->
  tile_at (put s c t) c' = if cell_eqb c c' then t else tile_at s c'.
Proof.
  intros far s c t c' Hs [Hr Hc]. destruct (sized_row far s (row c) Hs Hr) as [r [Er Lr]].
  unfold tile_at, put, with_cells. cbn [s_cells]. rewrite Er.
  assert (Li : (Z.to_nat (row c) < length (s_cells s))%nat) by (apply nth_error_Some; congruence).
  destruct (cell_eqb c c') eqn:E.
  - apply cell_eqb_eq in E. subst c'.
    destruct (row c <? 0) eqn:E1; [lia|]. destruct (col c <? 0) eqn:E2; [lia|]. cbn [orb].
    rewrite set_row_same by auto. rewrite set_row_same by lia. reflexivity.
  - destruct ((row c' <? 0) || (col c' <? 0)) eqn:En; auto.
    destruct (Nat.eq_dec (Z.to_nat (row c)) (Z.to_nat (row c'))) as [e|e].
    + rewrite e, set_row_same by (rewrite <- e; auto). rewrite <- e, Er.
      rewrite set_row_other; auto. intro Hx.
      unfold cell_eqb in E. lia.
    + rewrite set_row_other by auto. reflexivity.
Qed.

Lemma tile_put_same : forall far s c t, sized far s -> on_lattice far c -> tile_at (put s c t) c = t.
Proof.
  intros. rewrite (tile_put far) by auto.
  assert (H1 : cell_eqb c c = true) by (apply cell_eqb_eq; auto). rewrite H1. reflexivity.
Qed.

Lemma tile_put_other : forall far s c t c', sized far s -> on_lattice far c -> c <> c' ->
  tile_at (put s c t) c' = tile_at s c'.
Proof.
  intros. rewrite (tile_put far) by auto. destruct (cell_eqb c c') eqn:E; auto.
  apply cell_eqb_eq in E. contradiction.
Qed.

Lemma put_fields : forall s c t,
  s_magic (put s c t) = s_magic s /\ s_timers (put s c t) = s_timers s
  /\ s_yavail (put s c t) = s_yavail s /\ s_crossing (put s c t) = s_crossing s
  /\ s_rough (put s c t) = s_rough s /\ s_smooth (put s c t) = s_smooth s.
Proof. intros. cbn. auto 10. Qed.

Lemma tile_at_cells : forall s s' c, s_cells s = s_cells s' -> tile_at s c = tile_at s' c.
Proof. intros s s' c H. unfold tile_at. rewrite H. reflexivity. Qed.

Lemma sized_cells : forall far s s', s_cells s = s_cells s' -> sized far s -> sized far s'.
Proof. intros far s s' H. unfold sized. rewrite H. auto. Qed.

Lemma on_lattice_dec : forall far c, {on_lattice far c} + {~ on_lattice far c}.
Proof.
  intros far c. unfold on_lattice.
  destruct ((0 <=? row c) && (row c <=? row far) && (0 <=? col c) && (col c <=? col far)) eqn:E;
    [left|right]; lia.
Qed.

(** Two slices of the same size with the same tiles have the same cells. *)
Lemma list_ext : forall A (l l' : list A), (forall i, nth_error l i = nth_error l' i) -> l = l'.
Proof.
  induction l as [|x l IH]; intros [|y l'] H; auto.
  - specialize (H 0%nat). discriminate.
  - specialize (H 0%nat). discriminate.
  - f_equal.
    + specialize (H 0%nat). cbn in H. congruence.
    + apply IH. intro i. apply (H (S i)).
Qed.

Lemma cells_ext : forall far s s', sized far s -> sized far s' ->
  (forall c, tile_at s c = tile_at s' c) -> s_cells s = s_cells s'.
Proof.
  intros far s s' Hs Hs' H. apply list_ext. intro i.
  destruct Hs as [H0 [H1 [H2 H3]]]. destruct Hs' as [_ [_ [H2' H3']]].
  destruct (nth_error (s_cells s) i) as [r|] eqn:E;
    destruct (nth_error (s_cells s') i) as [r'|] eqn:E'; auto.
  - f_equal. apply list_ext. intro j.
    assert (Lr : Z.of_nat (length r) = col far + 1)
      by (rewrite Forall_forall in H3; apply H3; eapply nth_error_In; eauto).
    assert (Lr' : Z.of_nat (length r') = col far + 1)
      by (rewrite Forall_forall in H3'; apply H3'; eapply nth_error_In; eauto).
    specialize (H (mkCell (Z.of_nat i) (Z.of_nat j))). unfold tile_at in H. cbn [row col] in H.
    rewrite !Nat2Z.id, E, E' in H.
    destruct ((Z.of_nat i <? 0) || (Z.of_nat j <? 0)) eqn:En; [lia|].
    destruct (nth_error r j) eqn:Ej; destruct (nth_error r' j) eqn:Ej'; try congruence.
    + apply nth_error_None in Ej'. assert ((j < length r)%nat) by (apply nth_error_Some; congruence). lia.
    + apply nth_error_None in Ej. assert ((j < length r')%nat) by (apply nth_error_Some; congruence). lia.
  - apply nth_error_None in E'. assert ((i < length (s_cells s))%nat) by (apply nth_error_Some; congruence). lia.
  - apply nth_error_None in E. assert ((i < length (s_cells s'))%nat) by (apply nth_error_Some; congruence). lia.
Qed.

(** ** The traversal and the look-ups by id *)

Lemma enum_from_In : forall A (l : list A) i0 i x,
  In (i, x) (enum_from i0 l) <-> i0 <= i /\ nth_error l (Z.to_nat (i - i0)) = Some x.
Proof.
  induction l as [|a l IH]; intros i0 i x; cbn [enum_from In].
  - split; [tauto|]. intros [_ H]. destruct (Z.to_nat (i - i0)); discriminate.
  - rewrite IH. split.
    + intros [H|[H1 H2]].
      * inversion H; subst. split; [lia|]. replace (Z.to_nat (i - i)) with 0%nat by lia. reflexivity.
      * split; [lia|]. replace (Z.to_nat (i - i0)) with (S (Z.to_nat (i - (i0 + 1)))) by lia. exact H2.
    + intros [H1 H2]. destruct (Z.eq_dec i i0) as [e|e].
      * subst. left. replace (Z.to_nat (i0 - i0)) with 0%nat in H2 by lia. cbn in H2. congruence.
      * right. split; [lia|]. replace (Z.to_nat (i - i0)) with (S (Z.to_nat (i - (i0 + 1)))) in H2 by lia. exact H2.
Qed.

Lemma tiles_In : forall far s c t, sized far s ->
  In (c, t) (tiles s) <-> on_lattice far c /\ t = tile_at s c.
Proof.
  intros far s c t Hs. unfold tiles. rewrite in_flat_map. split.
  - intros [[i r] [Hi Hm]]. cbn [fst snd] in Hm. apply in_map_iff in Hm as [[j x] [He Hj]].
    cbn [fst snd] in He. inversion He; subst; clear He.
    apply enum_from_In in Hi as [Hi Er]. apply enum_from_In in Hj as [Hj Et].
    rewrite Z.sub_0_r in Er, Et.
    assert (on_lattice far (mkCell i j)).
    { destruct Hs as [H0 [H1 [H2 H3]]].
      assert (Hl : Z.of_nat (length r) = col far + 1)
        by (rewrite Forall_forall in H3; apply H3; eapply nth_error_In; eauto).
      assert ((Z.to_nat i < length (s_cells s))%nat) by (apply nth_error_Some; congruence).
      assert ((Z.to_nat j < length r)%nat) by (apply nth_error_Some; congruence).
      unfold on_lattice; cbn; lia. }
    split; auto. unfold tile_at; cbn [row col].
    destruct ((i <? 0) || (j <? 0)) eqn:En; [lia|]. rewrite Er, Et. reflexivity.
  - intros [Ho Ht]. destruct c as [i j]. destruct Ho as [Hr Hc]; cbn [row col] in Hr, Hc.
    destruct (sized_row far s i Hs Hr) as [r [Er Lr]].
    exists (i, r). split.
    + apply enum_from_In. rewrite Z.sub_0_r. split; [lia|auto].
    + cbn [fst snd]. apply in_map_iff. exists (j, t). split; [reflexivity|].
      apply enum_from_In. rewrite Z.sub_0_r. split; [lia|].
      unfold tile_at in Ht; cbn [row col] in Ht.
      destruct ((i <? 0) || (j <? 0)) eqn:En; [lia|]. rewrite Er in Ht.
      destruct (nth_error r (Z.to_nat j)) eqn:E; [congruence|]. apply nth_error_None in E. lia.
Qed.

Lemma has_id_carries : forall s c id, has_id id (tile_at s c) = true <-> carries s c id.
Proof.
  intros s c id. unfold has_id, carries. destruct (tile_at s c) as [p|].
  - destruct (p_id (dp p)) as [x|] eqn:E.
    + rewrite N.eqb_eq. split.
      * intros ->. exists p. auto.
      * intros [p' [H1 H2]]. congruence.
    + split; [discriminate|]. intros [p' [H1 H2]]. congruence.
  - split; [discriminate|]. intros [p' [H1 H2]]. discriminate.
Qed.

Lemma fold_last_cell : forall id l r0,
  (fold_left (fun ret (ct : cell * tile) => if has_id id (snd ct) then Some (fst ct) else ret) l r0 = r0
   /\ (forall ct, In ct l -> has_id id (snd ct) = false))
  \/ exists ct, In ct l /\ has_id id (snd ct) = true
       /\ fold_left (fun ret (ct : cell * tile) => if has_id id (snd ct) then Some (fst ct) else ret) l r0 = Some (fst ct)
       /\ forall r1, fold_left (fun ret (ct : cell * tile) => if has_id id (snd ct) then snd ct else ret) l r1 = snd ct.
Proof.
  intros id l. induction l as [|ct l IH]; intros r0.
  - left. split; [reflexivity|]. intros ct [].
  - cbn [fold_left].
    destruct (IH (if has_id id (snd ct) then Some (fst ct) else r0)) as [[H1 H2]|[ct' [H1 [H2 [H3 H4]]]]].
    + destruct (has_id id (snd ct)) eqn:E.
      * right. exists ct. split; [left; auto|]. split; [auto|]. split; [exact H1|].
        intros r1. clear -H2. 
        assert (G : forall l (r1 : tile), (forall ct, In ct l -> has_id id (snd ct) = false) ->
           fold_left (fun ret (ct : cell * tile) => if has_id id (snd ct) then snd ct else ret) l r1 = r1).
        { induction l0 as [|x l0 IHl]; intros r H; auto. cbn. rewrite (H x) by (left; auto).
          apply IHl. intros; apply H; right; auto. }
        apply G; auto.
      * left. split; [exact H1|]. intros x [<-|Hx]; auto.
    + right. exists ct'. split; [right; auto|]. split; [auto|]. split; auto.
Qed.

Lemma get_cell_by_id_None : forall far s id, sized far s ->
  (get_cell_by_id s id = None <-> forall c, ~ carries s c id).
Proof.
  intros far s id Hs. unfold get_cell_by_id.
  destruct (fold_last_cell id (tiles s) None) as [[H1 H2]|[[c t] [H1 [H2 [H3 H4]]]]].
  - split; [|auto]. intros _ c Hc. destruct Hc as [p [Hp Hi]].
    assert (Ho : on_lattice far c) by (eapply tile_on; eauto).
    assert (In (c, tile_at s c) (tiles s)) by (apply (tiles_In far); auto).
    specialize (H2 _ H). cbn [snd] in H2.
    assert (has_id id (tile_at s c) = true) by (apply has_id_carries; exists p; auto). congruence.
  - cbn [fst snd] in *. rewrite H3. split; [discriminate|]. intro Hn. exfalso.
    apply (tiles_In far) in H1 as [Ho ->]; auto. apply (Hn c). apply has_id_carries. auto.
Qed.

Lemma get_cell_by_id_Some : forall far s id c, sized far s ->
  get_cell_by_id s id = Some c -> carries s c id /\ on_lattice far c
                                  /\ get_patch_by_id s id = tile_at s c.
Proof.
  intros far s id c Hs. unfold get_cell_by_id, get_patch_by_id.
  destruct (fold_last_cell id (tiles s) None) as [[H1 H2]|[[c' t] [H1 [H2 [H3 H4]]]]].
  - rewrite H1. discriminate.
  - rewrite H3. intro E. cbn [fst snd] in *. inversion E; subst c'.
    apply (tiles_In far) in H1 as [Ho ->]; auto.
    split; [apply has_id_carries; auto|]. split; auto.
Qed.

Lemma get_patch_by_id_None : forall far s id, sized far s ->
  (get_patch_by_id s id = None <-> get_cell_by_id s id = None).
Proof.
  intros far s id Hs. destruct (get_cell_by_id s id) as [c|] eqn:E.
  - destruct (get_cell_by_id_Some far s id c Hs E) as [[p [Hp _]] [_ Hg]].
    rewrite Hg, Hp. split; discriminate.
  - split; auto. intros _. unfold get_cell_by_id, get_patch_by_id in *.
    destruct (fold_last_cell id (tiles s) None) as [[H1 H2]|[[c' t] [H1 [H2 [H3 H4]]]]];
      [|congruence].
    clear -H2. assert (G : forall l (r1 : tile), (forall ct, In ct l -> has_id id (snd ct) = false) ->
           fold_left (fun ret (ct : cell * tile) => if has_id id (snd ct) then snd ct else ret) l r1 = r1).
    { induction l as [|x l IHl]; intros r H; auto. cbn. rewrite (H x) by (left; auto).
      apply IHl. intros; apply H; right; auto. }
    apply G; auto.
Qed.

Lemma get_patch_by_id_tile : forall far s id p, sized far s -> get_patch_by_id s id = Some p ->
  exists c, get_cell_by_id s id = Some c /\ tile_at s c = Some p /\ p_id (dp p) = Some id
            /\ on_lattice far c.
Proof.
  intros far s id p Hs H. destruct (get_cell_by_id s id) as [c|] eqn:E.
  - destruct (get_cell_by_id_Some far s id c Hs E) as [[q [Hq Hi]] [Ho Hg]].
    exists c. rewrite Hg in H. repeat split; auto; try congruence. apply Ho. apply Ho. apply Ho. apply Ho.
  - apply (get_patch_by_id_None far) in E; auto. congruence.
Qed.

Lemma has_patch_cell : forall far s id, sized far s ->
  has_patch s id = match get_cell_by_id s id with Some _ => true | None => false end.
Proof.
  intros far s id Hs. unfold has_patch. destruct (get_cell_by_id s id) as [c|] eqn:E.
  - destruct (get_cell_by_id_Some far s id c Hs E) as [[q [Hq Hi]] [Ho Hg]]. rewrite Hg, Hq. reflexivity.
  - apply (get_patch_by_id_None far) in E; auto. rewrite E. reflexivity.
Qed.

Lemma get_cell_unique : forall far s id c, sized far s -> unique_ids s -> carries s c id ->
  get_cell_by_id s id = Some c.
Proof.
  intros far s id c Hs Hu Hc. destruct (get_cell_by_id s id) as [c'|] eqn:E.
  - apply (get_cell_by_id_Some far) in E as [H _]; auto. f_equal. eapply Hu; eauto.
  - apply (get_cell_by_id_None far) with (c := c) in E; auto. contradiction.
Qed.

(** ** Layouts read from a text are well formed *)

Lemma NoDup_app_intro : forall A (l1 l2 : list A), NoDup l1 -> NoDup l2 ->
  (forall x, In x l1 -> In x l2 -> False) -> NoDup (l1 ++ l2).
Proof.
  induction l1 as [|a l1 IH]; intros l2 H1 H2 Hd; auto. inversion H1; subst. cbn. constructor.
  - rewrite in_app_iff. intros [H|H]; [contradiction|]. apply (Hd a); cbn; auto.
  - apply IH; auto. intros x Hx Hx'. apply (Hd x); cbn; auto.
Qed.

Lemma core_cells_basic : forall cells,
  flat_map get_cells (map (fun c => basic_square_patch c None None) cells) = cells.
Proof. induction cells as [|c cells IH]; cbn; [auto|]. f_equal. exact IH. Qed.

Lemma concat_cells_In : forall (rs : list (list scell)) c,
  In c (map sc_cell (concat rs)) <-> exists R, In R rs /\ In c (map sc_cell R).
Proof.
  induction rs as [|R rs IH]; intros c; cbn.
  - split; [tauto|]. intros [R [[] _]].
  - rewrite map_app, in_app_iff, IH. split.
    + intros [H|[R' [H1 H2]]]; eauto.
    + intros [R' [[<-|H1] H2]]; eauto.
Qed.

Lemma concat_cells_NoDup : forall rs, (forall R, In R rs -> NoDup (map sc_cell R)) ->
  disjoint_regions rs -> NoDup (map sc_cell (concat rs)).
Proof.
  induction rs as [|R rs IH]; intros Hn Hd; cbn; [constructor|].
  rewrite map_app. apply NoDup_app_intro.
  - apply Hn. left; auto.
  - apply IH.
    + intros R' H. apply Hn. right; auto.
    + intros k k' R1 R2 c H1 H2 H3 H4. 
      assert (S k = S k') by (eapply (Hd (S k) (S k')); cbn; eauto). lia.
  - intros c H1 H2. apply concat_cells_In in H2 as [R' [H2 H3]].
    apply In_nth_error in H2 as [k Hk].
    assert (0 = S k)%nat by (eapply (Hd 0%nat (S k)); cbn; eauto). discriminate.
Qed.

Lemma grid_layout_wf : forall g o L, layout_of_grid g o = Ok L -> layout_wf L.
Proof.
  intros g o L E. destruct (layout_of_grid_spec g o) as [(L' & E' & Hok & Hm)|[E' _]]; [|congruence].
  assert (L' = L) by congruence. subst L'.
  destruct Hok as (Hf & Hcore & Hanc & Hdead & Hres & Hy & Hmr & (times & HI & Ht) & Hcov).
  destruct HI as [H2 Hd Htm]. cbn [fst snd] in *.
  assert (Hon : forall c t, written g c t -> on_lattice (l_furthest L) c)
    by (intros c t Hw; apply (written_on_lattice g); eauto).
  assert (Hcc : core_cells L = find_all_cells_of_type g kQubit)
    by (unfold core_cells; rewrite Hcore; apply core_cells_basic).
  assert (Hrc : forall c, In c (region_cells L) -> exists t, In t digits /\ written g c t).
  { intros c Hc. apply concat_cells_In in Hc as [R [HR Hc]].
    destruct (Forall2_In_l _ _ _ _ H2 HR) as (Q & _ & HQ).
    destruct (ro_class _ _ _ HQ) as (t & c0 & Hdg & Hw & _ & Hcl).
    exists t. split; auto. apply Hcl in Hc. eapply linked_written; eauto. }
  assert (Hsd : forall t, NoDup (find_all_cells_of_type g t))
    by (intros t; apply sorted_NoDup, find_all_exact).
  assert (Htk : forall c, In c (taken L) -> exists t, written g c t /\ t <> kAncilla /\ t <> kRouting).
  { intros c Hc. unfold taken in Hc. rewrite Hcc, Hy, Hres, Hdead in Hc.
    rewrite !in_app_iff in Hc.
    destruct Hc as [H|[H|[H|[H|H]]]]; try (apply find_all_In in H; eexists; repeat split; eauto; discriminate).
    apply Hrc in H as [t [Hdg Hw]]. exists t. split; auto.
    cbn in Hdg. split; intros ->; repeat (destruct Hdg as [Hdg|Hdg]; [discriminate|]); destruct Hdg. }
  constructor.
  - apply spec_furthest_ok in Hf. destruct Hf as (n & Hn0 & Hg & Hx & ->). unfold on_lattice; cbn [row col].
    destruct g; [congruence|]. cbn [length]. lia.
  - eauto.
  - unfold taken. rewrite Hcc, Hy, Hres, Hdead.
    assert (Hne : forall c t t', written g c t -> written g c t' -> t <> t' -> False)
      by (intros c t t' h1 h2 h3; apply h3; eapply written_fun; eauto).
    assert (Hnd : forall c t, written g c t -> ~ In t digits -> In c (region_cells L) -> False).
    { intros c t h1 h2 h3. apply Hrc in h3 as [t' [h4 h5]]. apply h2.
      rewrite (written_fun _ _ _ _ h1 h5). auto. }
    assert (Hdq : forall t, In t digits -> t <> kQubit /\ t <> kYState /\ t <> kMagic /\ t <> kDead).
    { intros t Hdg. cbn in Hdg. repeat split; intros ->;
        repeat (destruct Hdg as [Hdg|Hdg]; [discriminate|]); destruct Hdg. }
    assert (Hc2 : forall c t, t <> kMagic -> t <> kDead -> written g c t ->
       In c (find_all_cells_of_type g kMagic ++ find_all_cells_of_type g kDead) -> False).
    { intros c t h1 h2 h3 h4. apply in_app_iff in h4 as [h4|h4]; apply find_all_In in h4; apply (Hne c _ _ h3 h4); auto. }
    assert (Hc3 : forall c t, t <> kMagic -> t <> kDead -> ~ In t digits -> written g c t ->
       In c (region_cells L ++ find_all_cells_of_type g kMagic ++ find_all_cells_of_type g kDead) -> False).
    { intros c t h1 h2 h0 h3 h4. apply in_app_iff in h4 as [h4|h4]; [eapply Hnd; eauto|eapply Hc2; eauto]. }
    assert (Hk : forall t, In t [kQubit; kYState; kMagic; kDead] -> ~ In t digits).
    { intros t h h'. destruct (Hdq t h') as (?&?&?&?). cbn in h. intuition congruence. }
    apply NoDup_app_intro; [auto| |].
    { apply NoDup_app_intro; [auto| |].
      { apply NoDup_app_intro; [| |].
        - apply concat_cells_NoDup; auto. intros R HR.
          destruct (Forall2_In_l _ _ _ _ H2 HR) as (Q & _ & HQ). apply (ro_nodup _ _ _ HQ).
        - apply NoDup_app_intro; auto. intros c h1 h2. apply find_all_In in h1. apply find_all_In in h2.
          apply (Hne c _ _ h1 h2). discriminate.
        - intros c h1 h2. apply Hrc in h1 as [t [h4 h5]]. destruct (Hdq t h4) as (?&?&?&?).
          eapply (Hc2 c t); eauto. }
      intros c h1 h2. apply find_all_In in h1. eapply (Hc3 c kYState); eauto; try discriminate.
      apply Hk; cbn; auto. }
    intros c h1 h2. apply find_all_In in h1. apply in_app_iff in h2 as [h2|h2].
    + apply find_all_In in h2. apply (Hne c _ _ h1 h2). discriminate.
    + eapply (Hc3 c kQubit); eauto; try discriminate. apply Hk; cbn; auto.
  - intros c Hc. apply Htk in Hc as [t [Hw _]]. eauto.
  - intros c Hc. rewrite Hanc in Hc. apply find_all_In in Hc. split; [eauto|].
    intro Hk. apply Htk in Hk as [t [Hw [h _]]]. apply h. eapply written_fun; eauto.
  - symmetry. exact (Forall2_length' _ _ _ H2).
  - intros q c Hq Hc. 
    assert (Hx : exists R, In R (l_regions L) /\ region_ok g R q).
    { clear -H2 Hq. induction H2 as [|R0 q0 rs qs h0 H2 IH]; [destruct Hq|]. destruct Hq as [<-|Hq].
      - exists R0. split; [left; reflexivity|auto].
      - destruct IH as [R [h1 h2]]; auto. exists R. split; [right; auto|auto]. }
    destruct Hx as [R [HR HQ]]. pose proof (proj1 (ro_queue _ _ _ HQ c) Hc) as (c0 & _ & _ & Hw).
    split; [eauto|]. intro Hk. apply Htk in Hk as [t [Hw' [_ h]]]. apply h. eapply written_fun; eauto.
  - rewrite Ht, app_length, repeat_length, Htm, map_length, seq_length. reflexivity.
  - rewrite Ht. apply Forall_app. split.
    + rewrite Htm. apply Forall_forall. intros t Hin. apply in_map_iff in Hin as [k [<- _]].
      unfold nth_time, u32. destruct (d_staggered o); apply N.mod_lt; discriminate.
    + apply Forall_forall. intros t Hin. apply repeat_spec in Hin. subst t.
      unfold u32. apply N.mod_lt. discriminate.
  - rewrite Hmr. destruct (l_reserved L); cbn; split; intros; congruence.
  - intros Hr. destruct (l_regions L) as [|R rs] eqn:ER; auto. exfalso. apply Hm. split.
    + destruct (l_reserved L) as [|c r] eqn:Er; [congruence|]. exists c. apply find_all_In.
      rewrite <- Hres. left; auto.
    + destruct (Forall2_In_l _ _ _ R H2 (or_introl eq_refl)) as (Q & _ & HQ).
      destruct (ro_class _ _ _ HQ) as (t & c0 & Hdg & Hw & _). eauto.
Qed.

Lemma text_layout_wf : forall spec o L, layout_from_spec spec o = Ok L -> layout_wf L.
Proof.
  intros spec o L H. unfold layout_from_spec in H. apply bind_ok in H as [g [_ H]].
  eapply grid_layout_wf; eauto.
Qed.

(** ** Construction *)

(** [s'] is [s] with the listed tiles written. *)
Definition wrote (far : cell) (s s' : slice) (l : list (cell * dpatch)) : Prop :=
  sized far s' /\ (forall c p, In (c, p) l -> tile_at s' c = Some p)
  /\ (forall c, ~ In c (map fst l) -> tile_at s' c = tile_at s c)
  /\ s_magic s' = s_magic s /\ s_timers s' = s_timers s /\ s_crossing s' = s_crossing s
  /\ s_rough s' = s_rough s /\ s_smooth s' = s_smooth s.

Lemma wrote_nil : forall far s, sized far s -> wrote far s s [].
Proof. intros far s H. unfold wrote. cbn. intuition. Qed.

Lemma wrote_cons : forall far s s1 s2 c p l, sized far s -> on_lattice far c ->
  ~ In c (map fst l) -> s_cells s1 = s_cells (put s c (Some p)) ->
  s_magic s1 = s_magic s -> s_timers s1 = s_timers s -> s_crossing s1 = s_crossing s ->
  s_rough s1 = s_rough s -> s_smooth s1 = s_smooth s ->
  wrote far s1 s2 l -> wrote far s s2 ((c, p) :: l).
Proof.
  intros far s s1 s2 c p l Hs Hc Hn E E1 E2 E3 E4 E5 (W1 & W2 & W3 & W4 & W5 & W6 & W7 & W8).
  unfold wrote. split; [auto|]. split; [|split; [|repeat split; congruence]].
  - intros c' p' [H|H]; [|auto]. inversion H; subst c' p'.
    rewrite W3 by auto. rewrite (tile_at_cells _ _ c E). apply (tile_put_same far); auto.
  - intros c' H. cbn in H. rewrite W3 by tauto. rewrite (tile_at_cells _ _ c' E).
    apply (tile_put_other far); auto.
Qed.

Lemma sized_empty : forall L, on_lattice (l_furthest L) (mkCell 0 0) -> sized (l_furthest L) (empty_slice L).
Proof.
  intros L [H1 H2]. cbn in H1, H2. unfold sized, empty_slice; cbn [s_cells].
  rewrite repeat_length. split; [lia|]. split; [lia|]. split; [lia|].
  apply Forall_forall. intros r Hr. apply repeat_spec in Hr. subst r. rewrite repeat_length. lia.
Qed.

Lemma tile_empty : forall L c, tile_at (empty_slice L) c = None.
Proof.
  intros L c. unfold tile_at, empty_slice; cbn [s_cells].
  destruct ((row c <? 0) || (col c <? 0)); auto.
  destruct (nth_error (repeat _ _) _) as [r|] eqn:E; auto.
  apply nth_error_In, repeat_spec in E. subst r.
  destruct (nth_error (repeat None _) _) as [t|] eqn:E; auto.
  apply nth_error_In, repeat_spec in E. auto.
Qed.

Lemma place_basic_ok : forall far s c id lab, sized far s -> on_lattice far c -> tile_at s c = None ->
  place_single s (basic_square_patch c id lab) false = Ok (put s c (Some (square id lab)), c).
Proof.
  intros far s c id lab Hs Hc Ht. unfold place_single, basic_square_patch, is_free, from_sparse_patch.
  cbn [sp_cells sc_cell]. rewrite (patch_at_ok far) by auto. rewrite Ht. cbn.
  rewrite (set_patch_ok far) by auto. reflexivity.
Qed.

Lemma put_put : forall s c t t', put (put s c t) c t' = put s c t'.
Proof.
  intros s c t t'. unfold put, with_cells. cbn [s_cells s_magic s_timers s_yavail s_crossing s_rough s_smooth].
  f_equal. destruct (nth_error (s_cells s) (Z.to_nat (row c))) as [r|] eqn:E; [|rewrite E; auto].
  assert (Hl : (Z.to_nat (row c) < length (s_cells s))%nat) by (apply nth_error_Some; congruence).
  rewrite set_row_same by auto.
  assert (G : forall A (l : list A) i x y, set_row (set_row l i x) i y = set_row l i y).
  { induction l as [|a l IH]; intros [|i] x y; cbn; auto. f_equal; auto. }
  rewrite !G. reflexivity.
Qed.

Lemma place_core_ok : forall far cells ids s, sized far s -> NoDup cells ->
  (forall c, In c cells -> on_lattice far c /\ tile_at s c = None) ->
  (length ids <= length cells)%nat ->
  exists s', place_core s (map (fun c => basic_square_patch c None None) cells) ids = Ok s'
    /\ wrote far s s' (combine cells (map (fun id => square (Some id) None) ids))
    /\ s_yavail s' = s_yavail s.
Proof.
  induction cells as [|c cells IH]; intros ids s Hs Hn Hc Hl.
  - exists s. split; [reflexivity|]. split; [apply wrote_nil; auto|auto].
  - destruct ids as [|id ids].
    + exists s. split; [reflexivity|]. split; [apply wrote_nil; auto|auto].
    + inversion Hn as [|? ? Hni Hn']; subst.
      destruct (Hc c (or_introl eq_refl)) as [Ho Ht].
      cbn [map place_core]. rewrite (place_basic_ok far) by auto. cbn [bind].
      rewrite (patch_at_ok far) by (auto using sized_put). cbn [bind].
      rewrite (tile_put_same far) by auto. cbn [deref bind].
      rewrite (set_patch_ok far) by (auto using sized_put). cbn [bind].
      rewrite put_put. cbn.
      destruct (IH ids (put s c (Some (square (Some id) None)))) as [s' [E [W Y]]].
      * apply sized_put; auto.
      * auto.
      * intros x Hx. destruct (Hc x (or_intror Hx)) as [Ho' Ht']. split; auto.
        rewrite (tile_put_other far); auto. intros ->. contradiction.
      * cbn in Hl. lia.
      * exists s'. split; [exact E|]. split; [|exact Y].
        eapply wrote_cons; [exact Hs|exact Ho| |reflexivity..|exact W].
        intro Hin. apply in_map_iff in Hin as [[x y] [Hx Hxy]]. cbn in Hx. subst x.
        apply in_combine_l in Hxy. contradiction.
Qed.

Lemma place_ystates_ok : forall far cells s, sized far s -> NoDup cells ->
  (forall c, In c cells -> on_lattice far c /\ tile_at s c = None) -> (s_yavail s < 2 ^ 32)%N ->
  exists s', foldM place_ystate cells s = Ok s'
    /\ wrote far s s' (map (fun c => (c, square None None)) cells)
    /\ s_yavail s' = u32 (s_yavail s + N.of_nat (length cells)).
Proof.
  induction cells as [|c cells IH]; intros s Hs Hn Hc Hy.
  - exists s. split; [reflexivity|]. split; [apply wrote_nil; auto|]. cbn.
    rewrite N.add_0_r. unfold u32. rewrite N.mod_small; auto.
  - inversion Hn as [|? ? Hni Hn']; subst.
    destruct (Hc c (or_introl eq_refl)) as [Ho Ht].
    cbn [foldM]. unfold place_ystate at 1. rewrite (place_basic_ok far) by auto. cbn [bind].
    set (s1 := with_yavail _ _).
    assert (E1 : s_cells s1 = s_cells (put s c (Some (square None None)))) by reflexivity.
    assert (Hy1 : s_yavail s1 = u32 (s_yavail s + 1)) by reflexivity.
    destruct (IH s1) as [s' [E [W Y]]].
    + apply (sized_cells far _ _ (eq_sym E1)), sized_put; auto.
    + auto.
    + intros x Hx. destruct (Hc x (or_intror Hx)) as [Ho' Ht']. split; auto.
      rewrite (tile_at_cells _ _ x E1). rewrite (tile_put_other far); auto. intros ->. contradiction.
    + rewrite Hy1. unfold u32. apply N.mod_lt. discriminate.
    + exists s'. split; [exact E|]. split.
      * cbn [map]. eapply (wrote_cons far s s1); [exact Hs|exact Ho| |exact E1|reflexivity..|exact W].
        rewrite map_map. cbn. rewrite map_id. exact Hni.
      * rewrite Y, Hy1. cbn [length]. unfold u32. rewrite N.add_mod_idemp_l by discriminate.
        f_equal. lia.
Qed.

Lemma set_all_ok : forall A far (key : A -> cell) (val : A -> dpatch) l s, sized far s ->
  NoDup (map key l) -> (forall x, In x l -> on_lattice far (key x)) ->
  exists s', foldM (fun s x => set_patch s (key x) (Some (val x))) l s = Ok s'
    /\ wrote far s s' (map (fun x => (key x, val x)) l) /\ s_yavail s' = s_yavail s.
Proof.
  intros A far key val. induction l as [|x l IH]; intros s Hs Hn Hc.
  - exists s. split; [reflexivity|]. split; [apply wrote_nil; auto|auto].
  - inversion Hn as [|? ? Hni Hn']; subst. cbn [foldM].
    rewrite (set_patch_ok far) by (auto; apply Hc; left; auto). cbn [bind].
    destruct (IH (put s (key x) (Some (val x)))) as [s' [E [W Y]]].
    + apply sized_put; auto.
    + auto.
    + intros y Hy. apply Hc. right; auto.
    + exists s'. split; [exact E|]. split; [|exact Y].
      cbn [map]. eapply wrote_cons; [exact Hs|apply Hc; left; auto| |reflexivity..|exact W].
      rewrite map_map. cbn. exact Hni.
Qed.

Lemma NoDup_app_parts : forall A (l1 l2 : list A), NoDup (l1 ++ l2) ->
  NoDup l1 /\ NoDup l2 /\ (forall x, In x l1 -> In x l2 -> False).
Proof.
  induction l1 as [|a l1 IH]; intros l2 H.
  - split; [constructor|]. split; [exact H|]. intros x [].
  - cbn in H. inversion H as [|? ? Hn H']; subst. apply IH in H' as [H1 [H2 H3]].
    split; [constructor; auto; intro; apply Hn, in_app_iff; auto|]. split; auto.
    intros x [<-|Hx] Hx'; [apply Hn, in_app_iff; auto|eauto].
Qed.

Lemma new_slice_ok : forall L ids, layout_wf L -> (length ids <= length (core_cells L))%nat ->
  exists s, new_slice L ids = Ok s /\ initial L ids s.
Proof.
  intros L ids W Hl. destruct W as [Wf [cells Wc] Wd Won _ _ _ _ _ _ _].
  set (far := l_furthest L) in *.
  assert (Hcc : core_cells L = cells) by (unfold core_cells; rewrite Wc; apply core_cells_basic).
  unfold taken in Wd. rewrite Hcc in *.
  apply NoDup_app_parts in Wd as (D1 & Wd & X1).
  apply NoDup_app_parts in Wd as (D2 & Wd & X2).
  apply NoDup_app_parts in Wd as (D3 & Wd & X3).
  apply NoDup_app_parts in Wd as (D4 & D5 & X4).
  assert (Tk : forall c, In c (taken L) <-> In c cells \/ In c (l_ystates L) \/ In c (region_cells L)
                          \/ In c (l_reserved L) \/ In c (l_dead L)).
  { intros c. unfold taken. rewrite !in_app_iff, Hcc. tauto. }
  unfold new_slice.
  assert (Hlen : length (l_core L) = length cells) by (rewrite Wc, map_length; reflexivity).
  destruct (length (l_core L) <? length ids)%nat eqn:El; [apply Nat.ltb_lt in El; lia|].
  rewrite Wc.
  destruct (place_core_ok far cells ids (empty_slice L)) as [s1 [E1 [W1 Y1]]]; auto.
  { apply sized_empty; auto. }
  { intros c Hc. split; [apply Won, Tk; auto|apply tile_empty]. }
  rewrite E1. cbn [bind].
  destruct W1 as (W1s & W1i & W1o & W1m & W1t & W1x & W1r & W1k).
  assert (K1 : forall c, ~ In c cells -> ~ In c (map fst (combine cells (map (fun id => square (Some id) None) ids)))).
  { intros c Hc Hin. apply Hc. apply in_map_iff in Hin as [[x y] [<- Hxy]]. apply in_combine_l in Hxy. auto. }
  destruct (place_ystates_ok far (l_ystates L) s1) as [s2 [E2 [W2 Y2]]]; auto.
  { intros c Hc. split; [apply Won, Tk; auto|]. rewrite W1o, tile_empty; auto.
    apply K1. intro Hq. apply (X1 c Hq), in_app_iff; auto. }
  { rewrite Y1. cbn. lia. }
  rewrite E2. cbn [bind]. destruct W2 as (W2s & W2i & W2o & W2m & W2t & W2x & W2r & W2k).
  rewrite map_map in W2o. cbn in W2o. rewrite map_id in W2o.
  destruct (set_all_ok _ far sc_cell (fun sc => mkDP distillation_patch (sc_b sc)) (concat (l_regions L)) s2)
    as [s3 [E3 [W3 Y3]]]; auto.
  { intros sc Hsc. apply Won, Tk. right; right; left. apply in_map; auto. }
  rewrite E3. cbn [bind]. destruct W3 as (W3s & W3i & W3o & W3m & W3t & W3x & W3r & W3k).
  rewrite map_map in W3o. cbn in W3o. fold (region_cells L) in W3o.
  destruct (set_all_ok _ far (fun c => c) (fun _ => mkDP distillation_patch connected4) (l_reserved L) s3)
    as [s4 [E4 [W4 Y4]]]; auto.
  { rewrite map_id; auto. }
  { intros c Hc. apply Won, Tk. tauto. }
  rewrite E4. cbn [bind]. destruct W4 as (W4s & W4i & W4o & W4m & W4t & W4x & W4r & W4k).
  rewrite map_map in W4o. cbn in W4o. rewrite map_id in W4o.
  set (s4' := with_timers s4 (s_timers s4 ++ l_times L)).
  destruct (set_all_ok _ far (fun c => c) (fun _ => mkDP dead_patch connected4) (l_dead L) s4')
    as [s5 [E5 [W5 Y5]]]; auto.
  { rewrite map_id; auto. }
  { intros c Hc. apply Won, Tk. tauto. }
  destruct W5 as (W5s & W5i & W5o & W5m & W5t & W5x & W5r & W5k).
  rewrite map_map in W5o. cbn in W5o. rewrite map_id in W5o.
  exists s5. split; [exact E5|].
  assert (T4 : forall c, tile_at s4' c = tile_at s4 c) by (intro; apply tile_at_cells; reflexivity).
  assert (Tc : forall c, In c cells -> tile_at s5 c = tile_at s1 c).
  { intros c Hc. rewrite W5o, T4, W4o, W3o, W2o; auto; intro Hq; apply (X1 c Hc); rewrite !in_app_iff; tauto. }
  constructor; try (rewrite Hcc).
  - exact W5s.
  - intros k id Hk.
    destruct (nth_error cells k) as [c|] eqn:Ec.
    2:{ apply nth_error_None in Ec. assert ((k < length ids)%nat) by (apply nth_error_Some; congruence). lia. }
    exists c. split; auto. rewrite Tc by (eapply nth_error_In; eauto). apply W1i.
    assert (G : forall (l1 : list cell) (l2 : list dpatch) k a b, nth_error l1 k = Some a -> nth_error l2 k = Some b ->
      nth_error (combine l1 l2) k = Some (a, b)).
    { clear. induction l1 as [|x l1 IH]; intros [|y l2] [|k] a b H1 H2; cbn in *; try discriminate; try congruence.
      eapply IH; eauto. }
    eapply nth_error_In. apply G; eauto. rewrite nth_error_map, Hk. reflexivity.
  - intros k c Hk Hge. rewrite Tc by (eapply nth_error_In; eauto). rewrite W1o, tile_empty; auto.
    intro Hin. apply in_map_iff in Hin as [[x y] [Hx Hxy]]. cbn in Hx. subst x.
    apply In_nth_error in Hxy as [j Hj].
    assert (G : forall (l1 : list cell) (l2 : list dpatch) j p, nth_error (combine l1 l2) j = Some p ->
      nth_error l1 j = Some (fst p) /\ nth_error l2 j = Some (snd p)).
    { clear. induction l1 as [|x l1 IH]; intros [|y l2] [|k] p H; cbn in *; try discriminate.
      - inversion H; subst; auto.
      - apply IH in H; auto. }
    apply G in Hj as [Hj1 Hj2]. cbn in Hj1, Hj2.
    assert ((j < length ids)%nat) by (erewrite <- (map_length _ ids); apply nth_error_Some; rewrite Hj2; discriminate).
    assert (j = k); [|lia]. eapply NoDup_nth_error; [exact D1| |congruence].
    apply nth_error_Some. congruence.
  - intros c Hc. rewrite W5o, T4, W4o, W3o.
    + apply W2i. apply in_map_iff. eauto.
    + intro Hq. apply (X2 c Hc). rewrite !in_app_iff; tauto.
    + intro Hq. apply (X2 c Hc). rewrite !in_app_iff; tauto.
    + intro Hq. apply (X2 c Hc). rewrite !in_app_iff; tauto.
  - intros sc Hsc. assert (Hc : In (sc_cell sc) (region_cells L)) by (apply in_map; auto).
    rewrite W5o, T4, W4o.
    + apply W3i. apply in_map_iff. eauto.
    + intro Hq. apply (X3 _ Hc). rewrite !in_app_iff; tauto.
    + intro Hq. apply (X3 _ Hc). rewrite !in_app_iff; tauto.
  - intros c Hc. rewrite W5o, T4.
    + apply W4i. apply in_map_iff. eauto.
    + intro Hq. apply (X4 _ Hc). auto.
  - intros c Hc. apply W5i. apply in_map_iff. eauto.
  - intros c Hc. rewrite Tk in Hc. rewrite W5o, T4, W4o, W3o, W2o, W1o by tauto || (try apply K1; tauto).
    apply tile_empty.
  - rewrite W5m. unfold s4'. cbn. rewrite W4m, W3m, W2m, W1m. reflexivity.
  - rewrite W5t. unfold s4'. cbn. rewrite W4t, W3t, W2t, W1t. reflexivity.
  - rewrite Y5. unfold s4'. cbn. rewrite Y4, Y3, Y2, Y1. reflexivity.
  - rewrite W5x, W5r, W5k. unfold s4'. cbn.
    rewrite W4x, W3x, W2x, W1x, W4r, W3r, W2r, W1r, W4k, W3k, W2k, W1k. auto.
Qed.

Lemma new_slice_few : forall L ids, (length (l_core L) < length ids)%nat ->
  new_slice L ids = Throw RuntimeError.
Proof. intros L ids H. unfold new_slice. destruct (Nat.ltb_spec (length (l_core L)) (length ids)); auto. lia. Qed.

Lemma initial_ids : forall L ids s c id, layout_wf L -> initial L ids s -> carries s c id ->
  exists k, nth_error ids k = Some id /\ nth_error (core_cells L) k = Some c.
Proof.
  intros L ids s c id W I [p [Hp Hi]].
  destruct (in_dec cell_eq_dec c (taken L)) as [Hk|Hk].
  2:{ rewrite (in_open _ _ _ I) in Hp by auto. discriminate. }
  unfold taken in Hk. rewrite !in_app_iff in Hk.
  destruct Hk as [H|[H|[H|[H|H]]]].
  - apply In_nth_error in H as [k Hk].
    destruct (nth_error ids k) as [id'|] eqn:E.
    + destruct (in_core _ _ _ I k id' E) as [c' [E1 E2]]. assert (c' = c) by congruence. subst c'.
      rewrite E2 in Hp. inversion Hp; subst p. cbn in Hi. exists k. split; congruence.
    + apply nth_error_None in E. rewrite (in_spare _ _ _ I k c) in Hp by auto. discriminate.
  - rewrite (in_ystates _ _ _ I) in Hp by auto. inversion Hp; subst p. discriminate.
  - apply in_map_iff in H as [sc [<- H]]. rewrite (in_regions _ _ _ I) in Hp by auto.
    inversion Hp; subst p. discriminate.
  - rewrite (in_reserved _ _ _ I) in Hp by auto. inversion Hp; subst p. discriminate.
  - rewrite (in_dead _ _ _ I) in Hp by auto. inversion Hp; subst p. discriminate.
Qed.

Lemma core_NoDup : forall L, layout_wf L -> NoDup (core_cells L).
Proof.
  intros L W. pose proof (lw_disjoint L W) as D. unfold taken in D. apply NoDup_app_parts in D. tauto.
Qed.

Lemma initial_unique : forall L ids s, layout_wf L -> NoDup ids -> initial L ids s -> unique_ids s.
Proof.
  intros L ids s W Hn I c c' id H H'.
  destruct (initial_ids L ids s c id W I H) as [k [E1 E2]].
  destruct (initial_ids L ids s c' id W I H') as [k' [E1' E2']].
  assert (k = k').
  { eapply NoDup_nth_error; [exact Hn|apply nth_error_Some; congruence|congruence]. }
  congruence.
Qed.

(** ** Advancing *)

Lemma advance_tile_gone : forall p, consumed (p_act (dp p)) -> advance_tile (Some p) = None.
Proof.
  intros [[ty a id lab o] b] [H|H]; cbn in H; subst a; reflexivity.
Qed.

Lemma advance_tile_stays : forall p, ~ consumed (p_act (dp p)) ->
  exists p', advance_tile (Some p) = Some p' /\ same_patch_later p p'.
Proof.
  intros [[ty a id lab o] b] Hn. unfold consumed in Hn. cbn in Hn.
  destruct a; try (exfalso; apply Hn; auto; fail); eexists; (split; [reflexivity|]);
    unfold same_patch_later, keeps_joins; cbn; do 5 (split; [reflexivity|]);
    (split; [intros []; reflexivity|]); intros []; cbn;
    (split; [try discriminate; auto 6|intros [[H|[H|H]] H']; congruence]).
Qed.

Lemma advance_tile_eq : forall p p', advance_tile (Some p) = Some p' ->
  p_type (dp p') = p_type (dp p) /\ p_id (dp p') = p_id (dp p) /\ ~ consumed (p_act (dp p)).
Proof.
  intros [[ty a id lab o] b] p' H. unfold consumed.
  destruct a; cbn in H; inversion H; subst; cbn; repeat split; intros [h|h]; discriminate.
Qed.

Definition aged (s : slice) : slice := with_cells s (map (map advance_tile) (s_cells s)).

Lemma tile_aged : forall s c, tile_at (aged s) c = advance_tile (tile_at s c).
Proof.
  intros s c. unfold tile_at, aged, with_cells; cbn [s_cells].
  destruct ((row c <? 0) || (col c <? 0)); auto. rewrite nth_error_map.
  destruct (nth_error (s_cells s) (Z.to_nat (row c))) as [r|]; cbn; auto.
  rewrite nth_error_map. destruct (nth_error r (Z.to_nat (col c))); cbn; auto.
Qed.

Lemma sized_aged : forall far s, sized far s -> sized far (aged s).
Proof.
  intros far s [H0 [H1 [H2 H3]]]. unfold sized, aged, with_cells; cbn [s_cells].
  rewrite map_length. split; [auto|]. split; [auto|]. split; [auto|].
  apply Forall_forall. intros r Hr. apply in_map_iff in Hr as [r' [<- Hr]]. rewrite map_length.
  rewrite Forall_forall in H3. auto.
Qed.

Lemma cset_insert_In : forall x c l, In x (cset_insert c l) <-> x = c \/ In x l.
Proof.
  intros x c. induction l as [|y l IH]; cbn [cset_insert In]; [intuition|].
  destruct (cell_ltb c y) eqn:E1; cbn [In]; [intuition|].
  destruct (cell_ltb y c) eqn:E2; cbn [In]; [rewrite IH; intuition|].
  assert (y = c).
  { destruct y as [a b], c as [a' b']; unfold cell_ltb in *; cbn in *.
    assert (a = a' /\ b = b') as [-> ->] by lia. reflexivity. }
  subst. intuition.
Qed.

Lemma spawn_ok : forall far s c, sized far s -> on_lattice far c ->
  spawn_magic s c = Ok (with_magic (put s c (Some magic_tile)) (cset_insert c (s_magic s))).
Proof.
  intros far s c Hs Hc. unfold spawn_magic, place_single, magic_state_patch, basic_square_patch, is_free,
    from_sparse_patch. cbn [sp_cells sc_cell]. rewrite (patch_at_ok far) by auto.
  cbn [bind]. rewrite andb_false_r. cbn [bind sp_cells sp_patch p_act p_id p_label p_op sc_b].
  rewrite (set_patch_ok far) by auto. reflexivity.
Qed.

(** One reserved tile with its timer. *)
Definition respawn1 (full : N) (t : tile) (x : N) : tile * N * bool :=
  let t1 := match t with None => Some (mkDP distillation_patch connected4) | Some p => Some p end in
  let x1 := match t with
            | None => full
            | Some p => if ptype_eqb (p_type (dp p)) TDistillation then u32_dec x else x
            end in
  let due := N.eqb x1 0 &&
             match t1 with
             | Some p => negb (ptype_eqb (p_type (dp p)) TPreparedState) && negb (ptype_eqb (p_type (dp p)) TQubit)
             | None => false
             end in
  (if due then Some magic_tile else t1, x1, due).

Lemma respawn_step : forall L far s i c full x, sized far s -> on_lattice far c ->
  nth_error (s_timers s) i = Some x -> nth_error (l_times L) i = Some full ->
  exists s', respawn L (s, i) c = Ok (s', S i) /\ sized far s'
    /\ (forall c', tile_at s' c' = if cell_eqb c c' then fst (fst (respawn1 full (tile_at s c) x)) else tile_at s c')
    /\ s_timers s' = set_row (s_timers s) i (snd (fst (respawn1 full (tile_at s c) x)))
    /\ (forall c', In c' (s_magic s') <-> In c' (s_magic s) \/ (c' = c /\ snd (respawn1 full (tile_at s c) x) = true))
    /\ s_yavail s' = s_yavail s /\ s_rough s' = s_rough s /\ s_smooth s' = s_smooth s.
Proof.
  intros L far s i c full x Hs Hc Hx Hf. unfold respawn. rewrite (patch_at_ok far) by auto. cbn [bind].
  assert (Hlen : (i < length (s_timers s))%nat) by (apply nth_error_Some; congruence).
  (* the first half *)
  set (t1 := match tile_at s c with None => Some (mkDP distillation_patch connected4) | Some p => Some p end).
  set (x1 := match tile_at s c with
            | None => full
            | Some p => if ptype_eqb (p_type (dp p)) TDistillation then u32_dec x else x
            end).
  assert (H1 : exists s1,
     match tile_at s c with
     | None => do s' <- set_patch s c (Some (mkDP distillation_patch connected4)) ;;
               do _ <- idx (s_timers s') i ;; do full <- idx (l_times L) i ;;
               Ok (with_timers s' (set_row (s_timers s') i full))
     | Some p => if ptype_eqb (p_type (dp p)) TDistillation
                 then do x <- idx (s_timers s) i ;; Ok (with_timers s (set_row (s_timers s) i (u32_dec x)))
                 else Ok s
     end = Ok s1 /\ sized far s1 /\ (forall c', tile_at s1 c' = if cell_eqb c c' then t1 else tile_at s c')
     /\ s_timers s1 = set_row (s_timers s) i x1 /\ s_magic s1 = s_magic s
     /\ s_yavail s1 = s_yavail s /\ s_rough s1 = s_rough s /\ s_smooth s1 = s_smooth s).
  { subst t1 x1. destruct (tile_at s c) as [p|] eqn:Et.
    - assert (Hsame : forall c', tile_at s c' = if cell_eqb c c' then Some p else tile_at s c').
      { intros c'. destruct (cell_eqb c c') eqn:E; auto. apply cell_eqb_eq in E. subst. auto. }
      destruct (ptype_eqb (p_type (dp p)) TDistillation).
      + unfold idx. rewrite Hx. cbn [bind]. eexists. split; [reflexivity|].
        split; [apply (sized_cells far s); auto|]. split; [|cbn; auto].
        intros c'. rewrite <- Hsame. apply tile_at_cells. reflexivity.
      + exists s. split; [reflexivity|]. split; [auto|]. split; [auto|].
        split; [symmetry; apply set_row_id; auto|auto].
    - rewrite (set_patch_ok far) by auto. cbn [bind]. unfold idx. cbn [put with_cells s_timers].
      rewrite Hx, Hf. cbn [bind]. eexists. split; [reflexivity|].
      split; [eapply sized_cells; [|apply (sized_put far s c (Some (mkDP distillation_patch connected4))); auto]; reflexivity|].
      split; [|cbn; auto].
      intros c'. rewrite <- (tile_put far) by auto. apply tile_at_cells. reflexivity. }
  destruct H1 as [s1 [E1 [S1 [T1 [M1 [G1 [Y1 [R1 K1]]]]]]]]. rewrite E1. cbn [bind].
  unfold respawn1. fold t1 x1. cbn [fst snd].
  unfold idx. rewrite M1, set_row_same by auto. cbn [bind].
  assert (Tc : tile_at s1 c = t1).
  { rewrite T1. assert (cell_eqb c c = true) as -> by (apply cell_eqb_eq; auto). auto. }
  destruct (N.eqb x1 0) eqn:Ex; cbn [andb].
  2:{ exists s1. split; [reflexivity|]. split; [auto|]. split; [auto|]. split; [auto|].
      split; [|auto]. rewrite G1. intros c'. split; auto. intros [h|[_ h]]; [auto|discriminate]. }
  rewrite (patch_at_ok far) by auto. cbn [bind]. rewrite Tc.
  assert (Hp : exists p, t1 = Some p) by (subst t1; destruct (tile_at s c); eauto).
  destruct Hp as [p Hp]. rewrite Hp. cbn [deref bind].
  destruct (negb (ptype_eqb (p_type (dp p)) TPreparedState) && negb (ptype_eqb (p_type (dp p)) TQubit)) eqn:Ed.
  - rewrite (spawn_ok far) by auto. cbn [bind]. eexists. split; [reflexivity|].
    split; [eapply sized_cells; [|apply (sized_put far s1 c (Some magic_tile)); auto]; reflexivity|].
    split; [|split; [exact M1|split; [|cbn; auto]]].
    + intros c'. transitivity (tile_at (put s1 c (Some magic_tile)) c'); [apply tile_at_cells; reflexivity|].
      rewrite (tile_put far) by auto. destruct (cell_eqb c c') eqn:E; auto.
      rewrite T1, E. reflexivity.
    + intros c'. cbn [s_magic with_magic]. rewrite cset_insert_In, G1. intuition.
  - exists s1. split; [reflexivity|]. split; [auto|]. split; [intro c'; rewrite T1, Hp; auto|]. split; [auto|].
    split; [|auto]. rewrite G1. intros c'. split; auto. intros [h|[_ h]]; [auto|discriminate].
Qed.

Lemma respawn_fold : forall L far cells s i, sized far s -> NoDup cells ->
  (forall c, In c cells -> on_lattice far c) ->
  (i + length cells <= length (s_timers s))%nat -> (i + length cells <= length (l_times L))%nat ->
  exists s', foldM (respawn L) cells (s, i) = Ok (s', (i + length cells)%nat) /\ sized far s'
    /\ (forall c, ~ In c cells -> tile_at s' c = tile_at s c)
    /\ (forall k c full x, nth_error cells k = Some c -> nth_error (s_timers s) (i + k) = Some x ->
          nth_error (l_times L) (i + k) = Some full ->
          tile_at s' c = fst (fst (respawn1 full (tile_at s c) x))
          /\ nth_error (s_timers s') (i + k) = Some (snd (fst (respawn1 full (tile_at s c) x)))
          /\ (In c (s_magic s') <-> In c (s_magic s) \/ snd (respawn1 full (tile_at s c) x) = true))
    /\ length (s_timers s') = length (s_timers s)
    /\ (forall j, (j < i \/ i + length cells <= j)%nat -> nth_error (s_timers s') j = nth_error (s_timers s) j)
    /\ (forall c, ~ In c cells -> (In c (s_magic s') <-> In c (s_magic s)))
    /\ s_yavail s' = s_yavail s /\ s_rough s' = s_rough s /\ s_smooth s' = s_smooth s.
Proof.
  intros L far. induction cells as [|c cells IH]; intros s i Hs Hn Hc Hl1 Hl2.
  - exists s. cbn [foldM length]. rewrite Nat.add_0_r. split; [reflexivity|]. split; [auto|]. split; [auto|].
    split; [intros [|k] ? ? ? H; discriminate|]. split; [auto|]. split; [auto|]. split; [tauto|auto].
  - cbn [length] in Hl1, Hl2. inversion Hn as [|? ? Hni Hn']; subst.
    destruct (nth_error (s_timers s) i) as [x|] eqn:Ex; [|apply nth_error_None in Ex; lia].
    destruct (nth_error (l_times L) i) as [full|] eqn:Ef; [|apply nth_error_None in Ef; lia].
    destruct (respawn_step L far s i c full x) as [s1 [E1 [S1 [T1 [M1 [G1 [Y1 [R1 K1]]]]]]]]; auto.
    { apply Hc; left; auto. }
    cbn [foldM]. rewrite E1. cbn [bind].
    assert (L1 : length (s_timers s1) = length (s_timers s)) by (rewrite M1; apply set_row_length).
    destruct (IH s1 (S i)) as [s' [E [S' [T' [P' [L' [J' [G' [Y' [R' K']]]]]]]]]]; auto; try lia.
    { intros y Hy; apply Hc; right; auto. }
    exists s'. rewrite E. split; [f_equal; f_equal; cbn; lia|]. split; [auto|].
    split; [|split; [|split; [|split; [|split; [|split; [|split]]]]]].
    + intros y Hy. rewrite T' by (intro; apply Hy; right; auto). rewrite T1.
      destruct (cell_eqb c y) eqn:Ey; auto. apply cell_eqb_eq in Ey. subst. exfalso. apply Hy. left; auto.
    + intros [|k] y full' x' Hk Hx' Hf'.
      * cbn in Hk. inversion Hk; subst y. rewrite Nat.add_0_r in *.
        assert (x' = x) by congruence. assert (full' = full) by congruence. subst.
        rewrite T' by auto. rewrite T1. assert (cell_eqb c c = true) as -> by (apply cell_eqb_eq; auto).
        split; [auto|]. split.
        -- rewrite J' by lia. rewrite M1. apply set_row_same. lia.
        -- rewrite G' by auto. rewrite G1. intuition.
      * cbn in Hk. replace (i + S k)%nat with (S i + k)%nat in * by lia.
        assert (Hne : c <> y) by (intros ->; apply Hni; eapply nth_error_In; eauto).
        assert (Hy1 : tile_at s1 y = tile_at s y).
        { rewrite T1. destruct (cell_eqb c y) eqn:Ey; auto. apply cell_eqb_eq in Ey. contradiction. }
        specialize (P' k y full' x' Hk). rewrite M1, set_row_other in P' by lia.
        specialize (P' Hx' Hf'). rewrite Hy1 in P'. destruct P' as [p1 [p2 p3]].
        split; [auto|]. split; [auto|]. rewrite p3, G1. intuition congruence.
    + congruence.
    + intros j Hj. rewrite J' by (cbn [length] in Hj; lia). rewrite M1. apply set_row_other.
      cbn [length] in Hj; lia.
    + intros y Hy. rewrite G' by (intro; apply Hy; right; auto). rewrite G1.
      split; [|auto]. intros [h|[h _]]; auto. subst. exfalso; apply Hy; left; auto.
    + congruence.
    + congruence.
    + congruence.
Qed.

(** ** Factories *)

(** The factories [new] delivered one state each, [(i,c)] meaning factory [i] on
    tile [c]; the others that were due found their whole queue occupied. *)
Record delivery (L : layout) (before after : slice) (due : nat -> Prop) (new : list (nat * cell)) : Prop := {
  de_once : NoDup (map fst new);
  de_cells : NoDup (map snd new);
  de_new : forall i c, In (i, c) new -> due i
             /\ (exists q, nth_error (l_queues L) i = Some q /\ In c q)
             /\ tile_at before c = None /\ tile_at after c = Some magic_tile;
  de_old : forall c, ~ In c (map snd new) -> tile_at after c = tile_at before c;
  de_full : forall i q c, due i -> ~ In i (map fst new) -> nth_error (l_queues L) i = Some q ->
             In c q -> tile_at after c <> None;
  de_list : forall c, In c (s_magic after) <-> In c (s_magic before) \/ In c (map snd new) }.

Lemma first_free_ok : forall far s l, sized far s -> (forall c, In c l -> on_lattice far c) ->
  (exists c, first_free s l = Ok (Some c) /\ In c l /\ tile_at s c = None)
  \/ (first_free s l = Ok None /\ forall c, In c l -> tile_at s c <> None).
Proof.
  intros far s l Hs. induction l as [|c l IH]; intros Hl; cbn [first_free].
  - right. split; [reflexivity|]. intros c [].
  - unfold is_free. rewrite (patch_at_ok far) by (auto; apply Hl; left; auto). cbn [bind].
    destruct (tile_at s c) as [p|] eqn:E.
    + destruct IH as [[c' [H1 [H2 H3]]]|[H1 H2]].
      * intros; apply Hl; right; auto.
      * left. exists c'. split; [exact H1|]. split; [right; auto|auto].
      * right. split; [exact H1|]. intros c' [<-|H]; [congruence|auto].
    + left. exists c. split; auto. split; [left; auto|auto].
Qed.

Definition count_down (full t : N) : N := if N.eqb (u32_dec t) 0 then full else u32_dec t.

Lemma run_factories_ok : forall L far todo s i, sized far s ->
  (forall q c, In q (l_queues L) -> In c q -> on_lattice far c) ->
  (i + length todo <= length (l_queues L))%nat -> (i + length todo <= length (l_times L))%nat ->
  (i + length todo <= length (s_timers s))%nat ->
  exists s' new, run_factories L s i todo = Ok s' /\ sized far s'
    /\ delivery L s s' (fun j => exists k t, j = (i + k)%nat /\ nth_error todo k = Some t /\ u32_dec t = 0%N) new
    /\ (forall k t full, nth_error todo k = Some t -> nth_error (l_times L) (i + k) = Some full ->
          nth_error (s_timers s') (i + k) = Some (count_down full t))
    /\ length (s_timers s') = length (s_timers s)
    /\ (forall j, (j < i)%nat -> nth_error (s_timers s') j = nth_error (s_timers s) j)
    /\ s_yavail s' = s_yavail s /\ s_rough s' = s_rough s /\ s_smooth s' = s_smooth s
    /\ (forall j c, In (j, c) new -> (i <= j)%nat).
Proof.
  intros L far. induction todo as [|t todo IH]; intros s i Hs Hq Hl1 Hl2 Hl3.
  - exists s, []. split; [reflexivity|]. split; [auto|]. split; [|split; [|split; [|split; [|split; [|split; [|split]]]]]]; auto.
    + constructor; cbn; try constructor; try tauto.
      intros j q c [k [t [_ [H _]]]]. destruct k; discriminate.
    + intros [|k] ? ? H; discriminate.
    + intros j c [].
  - cbn [length] in *. cbn [run_factories].
    destruct (nth_error (l_times L) i) as [full|] eqn:Ef; [|apply nth_error_None in Ef; lia].
    destruct (nth_error (l_queues L) i) as [q|] eqn:Eq; [|apply nth_error_None in Eq; lia].
    (* after the first factory *)
    assert (H1 : exists s1 new1,
       (if N.eqb (u32_dec t) 0 then
          do place <- find_place_for_magic_state s L i ;;
          do s1 <- match place with Some c => spawn_magic s c | None => Ok s end ;;
          do full <- idx (l_times L) i ;;
          run_factories L (with_timers s1 (set_row (s_timers s1) i full)) (S i) todo
        else run_factories L (with_timers s (set_row (s_timers s) i (u32_dec t))) (S i) todo)
       = run_factories L s1 (S i) todo
       /\ sized far s1 /\ s_timers s1 = set_row (s_timers s) i (count_down full t)
       /\ s_yavail s1 = s_yavail s /\ s_rough s1 = s_rough s /\ s_smooth s1 = s_smooth s
       /\ delivery L s s1 (fun j => j = i /\ u32_dec t = 0%N) new1).
    { unfold count_down. destruct (N.eqb (u32_dec t) 0) eqn:Ed.
      - apply N.eqb_eq in Ed. unfold find_place_for_magic_state, idx. rewrite Eq, Ef. cbn [bind].
        assert (Hql : forall c, In c q -> on_lattice far c)
          by (intros c Hc; eapply Hq; eauto; eapply nth_error_In; eauto).
        destruct (first_free_ok far s q Hs Hql) as [[c [F1 [F2 F3]]]|[F1 F2]]; rewrite F1; cbn [bind].
        + rewrite (spawn_ok far) by auto. cbn [bind].
          eexists. exists [(i, c)]. split; [reflexivity|].
          split; [eapply sized_cells; [|apply (sized_put far s c (Some magic_tile)); auto]; reflexivity|].
          split; [reflexivity|]. split; [reflexivity|]. split; [reflexivity|]. split; [reflexivity|].
          assert (Ht : forall s2, s_cells s2 = s_cells (put s c (Some magic_tile)) ->
             forall c', tile_at s2 c' = if cell_eqb c c' then Some magic_tile else tile_at s c').
          { intros s2 E2 c'. rewrite (tile_at_cells _ _ c' E2). apply (tile_put far); auto. }
          constructor; cbn [map fst snd].
          * repeat constructor; cbn; tauto.
          * repeat constructor; cbn; tauto.
          * intros j c' [H|[]]. inversion H; subst j c'. split; [auto|]. split; [eauto|]. split; [auto|].
            rewrite Ht by reflexivity. assert (cell_eqb c c = true) as -> by (apply cell_eqb_eq; auto). auto.
          * intros c' H. rewrite Ht by reflexivity. destruct (cell_eqb c c') eqn:E; auto.
            apply cell_eqb_eq in E. subst. exfalso. apply H. left; auto.
          * intros j q' c' [-> _] H. exfalso. apply H. left; auto.
          * intros c'. cbn [s_magic with_timers with_magic]. rewrite cset_insert_In. cbn. intuition.
        + eexists. exists []. split; [reflexivity|].
          split; [apply (sized_cells far s); auto|].
          split; [reflexivity|]. split; [reflexivity|]. split; [reflexivity|]. split; [reflexivity|].
          constructor; cbn; try constructor; try tauto.
          intros j q' c' [-> _] _ Hq' Hc'. assert (q' = q) by congruence. subst.
          apply F2; auto.
      - apply N.eqb_neq in Ed. eexists. exists []. split; [reflexivity|].
        split; [apply (sized_cells far s); auto|].
        split; [reflexivity|]. split; [reflexivity|]. split; [reflexivity|]. split; [reflexivity|].
        constructor; cbn; try constructor; try tauto. }
    destruct H1 as [s1 [new1 [E1 [S1 [M1 [Y1 [R1 [K1 D1]]]]]]]]. rewrite E1.
    assert (L1 : length (s_timers s1) = length (s_timers s)) by (rewrite M1; apply set_row_length).
    destruct (IH s1 (S i)) as [s' [new [E [S' [D' [T' [L' [J' [Y' [R' [K' I']]]]]]]]]]]; auto; try lia.
    exists s', (new1 ++ new). split; [exact E|]. split; [auto|].
    assert (I1 : forall j c, In (j, c) new1 -> j = i) by (intros j c H; apply (de_new _ _ _ _ _ D1) in H; tauto).
    split; [|split; [|split; [|split; [|split; [|split; [|split]]]]]].
    + constructor.
      * rewrite map_app. apply NoDup_app_intro; [apply (de_once _ _ _ _ _ D1)|apply (de_once _ _ _ _ _ D')|].
        intros j h1 h2. apply in_map_iff in h1 as [[j1 c1] [<- h1]]. apply in_map_iff in h2 as [[j2 c2] [h3 h2]].
        cbn in *. subst j2. apply I1 in h1. apply I' in h2. lia.
      * rewrite map_app. apply NoDup_app_intro; [apply (de_cells _ _ _ _ _ D1)|apply (de_cells _ _ _ _ _ D')|].
        intros c h1 h2. apply in_map_iff in h1 as [[j1 c1] [<- h1]]. apply in_map_iff in h2 as [[j2 c2] [h3 h2]].
        cbn in *. subst c2. apply (de_new _ _ _ _ _ D1) in h1 as (_ & _ & _ & h1).
        apply (de_new _ _ _ _ _ D') in h2 as (_ & _ & h2 & _). congruence.
      * intros j c H. apply in_app_iff in H as [H|H].
        -- pose proof (I1 _ _ H) as ->.
           apply (de_new _ _ _ _ _ D1) in H as ((_ & h1) & h2 & h3 & h4).
           split; [exists 0%nat, t; split; [lia|]; auto|]. split; [auto|]. split; [auto|].
           rewrite (de_old _ _ _ _ _ D'); auto.
           intro Hin. apply in_map_iff in Hin as [[j2 c2] [h5 h6]]. cbn in h5. subst c2.
           apply (de_new _ _ _ _ _ D') in h6 as (_ & _ & h6 & _). congruence.
        -- apply (de_new _ _ _ _ _ D') in H as ([k [t' [h0 [h1 h1']]]] & h2 & h3 & h4).
           split; [exists (S k), t'; split; [lia|]; auto|]. split; [auto|]. split; [|auto].
           destruct (in_dec cell_eq_dec c (map snd new1)) as [Hd|Hd].
           ++ apply in_map_iff in Hd as [[j1 c1] [h5 h6]]. cbn in h5. subst c1.
              apply (de_new _ _ _ _ _ D1) in h6 as (_ & _ & h6 & h7). congruence.
           ++ rewrite <- (de_old _ _ _ _ _ D1); auto.
      * intros c H. rewrite map_app, in_app_iff in H.
        rewrite (de_old _ _ _ _ _ D') by tauto. apply (de_old _ _ _ _ _ D1). tauto.
      * intros j q' c [k [t' [-> [h1 h2]]]] Hni Hq' Hc'. rewrite map_app, in_app_iff in Hni.
        destruct k as [|k].
        -- cbn in h1. inversion h1; subst t'. rewrite Nat.add_0_r in *.
           assert (Hf1 : tile_at s1 c <> None).
           { apply (de_full _ _ _ _ _ D1 i q' c); auto. }
           intro Hx. destruct (in_dec cell_eq_dec c (map snd new)) as [Hd|Hd].
           ++ apply in_map_iff in Hd as [[j1 c1] [h5 h6]]. cbn in h5. subst c1.
              apply (de_new _ _ _ _ _ D') in h6 as (_ & _ & _ & h7). congruence.
           ++ apply Hf1. rewrite <- (de_old _ _ _ _ _ D'); auto.
        -- cbn in h1. apply (de_full _ _ _ _ _ D' (i + S k)%nat q' c); auto.
           exists k, t'. split; [lia|]. auto.
      * intros c. rewrite (de_list _ _ _ _ _ D'), (de_list _ _ _ _ _ D1), map_app, in_app_iff. tauto.
    + intros [|k] t' full' Hk Hf'.
      * cbn in Hk. inversion Hk; subst t'. rewrite Nat.add_0_r in *. assert (full' = full) by congruence. subst.
        rewrite J' by lia. rewrite M1. apply set_row_same. lia.
      * cbn in Hk. replace (i + S k)%nat with (S i + k)%nat in * by lia. apply T'; auto.
    + congruence.
    + intros j Hj. rewrite J' by lia. rewrite M1. apply set_row_other. lia.
    + congruence.
    + congruence.
    + congruence.
    + intros j c H. apply in_app_iff in H as [H|H]; [apply I1 in H; lia|apply I' in H; lia].
Qed.

(** ** The whole step *)

Lemma vacated_aged : forall s c, vacated s c <-> tile_at (aged s) c = None.
Proof.
  intros s c. rewrite tile_aged. unfold vacated. destruct (tile_at s c) as [p|] eqn:E.
  - split.
    + intros [H|[p' [H1 H2]]]; [discriminate|]. inversion H1; subst. apply advance_tile_gone; auto.
    + intros H. right. exists p. split; auto.
      assert (D : {p_act (dp p) = AMeasurement} + {p_act (dp p) <> AMeasurement}) by decide equality.
      assert (D' : {p_act (dp p) = AMultiPatch} + {p_act (dp p) <> AMultiPatch}) by decide equality.
      destruct D as [D|D]; [left; auto|]. destruct D' as [D'|D']; [right; auto|].
      destruct (advance_tile_stays p) as [p' [H' _]]; [|congruence]. intros [h|h]; auto.
  - cbn. split; auto.
Qed.

Lemma aged_stays : forall s c p, tile_at s c = Some p -> ~ consumed (p_act (dp p)) ->
  exists p', tile_at (aged s) c = Some p' /\ same_patch_later p p'.
Proof. intros s c p H Hn. rewrite tile_aged, H. apply advance_tile_stays; auto. Qed.

Lemma aged_back : forall s c p', tile_at (aged s) c = Some p' ->
  exists p, tile_at s c = Some p /\ same_patch_later p p'.
Proof.
  intros s c p' H. rewrite tile_aged in H. destruct (tile_at s c) as [p|] eqn:E; [|discriminate].
  exists p. split; auto. destruct (advance_tile_eq _ _ H) as (_ & _ & Hn).
  destruct (advance_tile_stays p Hn) as [p1 [H1 H2]]. rewrite H in H1. inversion H1; subst; auto.
Qed.

Definition reserved_step (L : layout) (s s' : slice) : Prop :=
  (forall c, ~ In c (l_reserved L) -> tile_at s' c = tile_at (aged s) c)
  /\ (forall c, ~ In c (l_reserved L) -> (In c (s_magic s') <-> In c (s_magic s)))
  /\ (forall k c full x, nth_error (l_reserved L) k = Some c -> nth_error (s_timers s) k = Some x ->
        nth_error (l_times L) k = Some full ->
        tile_at s' c = fst (fst (respawn1 full (tile_at (aged s) c) x))
        /\ nth_error (s_timers s') k = Some (snd (fst (respawn1 full (tile_at (aged s) c) x)))
        /\ (In c (s_magic s') <-> In c (s_magic s) \/ snd (respawn1 full (tile_at (aged s) c) x) = true)).

Definition factory_step (L : layout) (s s' : slice) (new : list (nat * cell)) : Prop :=
  delivery L (aged s) s' (fun j => exists t, nth_error (s_timers s) j = Some t /\ u32_dec t = 0%N) new
  /\ (forall k t full, nth_error (s_timers s) k = Some t -> nth_error (l_times L) k = Some full ->
          nth_error (s_timers s') k = Some (count_down full t)).

Lemma advance_ok : forall L s, layout_wf L -> sized (l_furthest L) s ->
  length (s_timers s) = length (l_times L) ->
  exists s', advance_slice L s = Ok s' /\ sized (l_furthest L) s'
    /\ length (s_timers s') = length (l_times L)
    /\ s_crossing s' = [] /\ s_yavail s' = s_yavail s
    /\ s_rough s' = s_rough s /\ s_smooth s' = s_smooth s
    /\ (if l_magic_reserved L then reserved_step L s s' else exists new, factory_step L s s' new).
Proof.
  intros L s W Hs Hl. pose proof (lw_disjoint L W) as D. unfold taken in D.
  pose proof (sized_aged _ _ Hs) as Ha.
  unfold advance_slice. fold (aged s).
  destruct (l_magic_reserved L) eqn:Em.
  - apply (lw_reserved L W) in Em. pose proof (lw_mixed L W Em) as Er.
    pose proof (lw_times L W) as Ht. rewrite Er in Ht. cbn [length plus] in Ht.
    destruct (respawn_fold L (l_furthest L) (l_reserved L) (aged s) 0%nat Ha)
      as (s' & E & S' & T & P & Ln & _ & G & Y & R & K).
    { do 3 (apply NoDup_app_parts in D; destruct D as (_ & D & _)).
      apply NoDup_app_parts in D. tauto. }
    { intros c Hc. apply (lw_on L W). unfold taken. rewrite !in_app_iff. tauto. }
    { cbn. lia. }
    { lia. }
    rewrite E. cbn [bind]. eexists. split; [reflexivity|].
    split; [apply (sized_cells _ s'); auto|]. split; [cbn in *; lia|]. split; [reflexivity|].
    split; [exact Y|]. split; [exact R|]. split; [exact K|].
    split; [|split].
    + intros c Hc. rewrite <- T by auto. apply tile_at_cells. reflexivity.
    + exact G.
    + intros k c full x H1 H2 H3. specialize (P k c full x H1 H2 H3). destruct P as (p1 & p2 & p3).
      split; [|auto]. rewrite <- p1. apply tile_at_cells. reflexivity.
  - assert (Er : l_reserved L = []).
    { destruct (l_reserved L) eqn:E; auto. assert (l_magic_reserved L = true) by (apply (lw_reserved L W); congruence).
      congruence. }
    pose proof (lw_times L W) as Ht. rewrite Er in Ht. cbn [length] in Ht. rewrite Nat.add_0_r in Ht.
    pose proof (lw_queues L W) as Hq.
    destruct (run_factories_ok L (l_furthest L) (s_timers s) (aged s) 0%nat Ha)
      as (s' & new & E & S' & Dv & T & Ln & _ & Y & R & K & _); try (cbn; lia).
    { intros q c H1 H2. eapply (lw_queue L W); eauto. }
    cbn [aged with_cells s_timers] in E. unfold aged at 2. cbn [with_cells s_timers]. rewrite E. cbn [bind].
    eexists. split; [reflexivity|].
    split; [apply (sized_cells _ s'); auto|]. split; [cbn in *; lia|]. split; [reflexivity|].
    split; [exact Y|]. split; [exact R|]. split; [exact K|].
    exists new. split; [|exact T].
    assert (Hsame : forall c, tile_at (with_crossing s' []) c = tile_at s' c) by (intros; apply tile_at_cells; reflexivity).
    destruct Dv as [d1 d2 d3 d4 d5 d6]. constructor; auto.
    + intros i c H. destruct (d3 i c H) as ((k & t & -> & H1 & H2) & H3 & H4 & H5). rewrite Hsame. eauto 6.
    + intros i q c (t & H1 & H2) Hni H3 H4. rewrite Hsame. apply (d5 i q c); auto. exists i, t. auto.
Qed.

(** *** Reserved tiles, case by case *)

Lemma reserved_index : forall L c, layout_wf L -> In c (l_reserved L) ->
  exists k full, nth_error (l_reserved L) k = Some c /\ nth_error (l_times L) k = Some full.
Proof.
  intros L c W H. apply In_nth_error in H as [k Hk]. exists k.
  assert (Hl : (k < length (l_reserved L))%nat) by (apply nth_error_Some; congruence).
  pose proof (lw_times L W) as Ht.
  destruct (nth_error (l_times L) k) as [f|] eqn:E; [eauto|]. apply nth_error_None in E. lia.
Qed.

Lemma respawn1_kept : forall full p x,
  p_type (dp p) = TQubit \/ p_type (dp p) = TPreparedState ->
  respawn1 full (Some p) x = (Some p, x, false).
Proof.
  intros full p x [H|H]; unfold respawn1; rewrite H; cbn; rewrite andb_false_r; reflexivity.
Qed.

Lemma respawn1_some : forall full p x,
  (exists b, respawn1 full (Some p) x = (if b : bool then Some magic_tile else Some p, snd (fst (respawn1 full (Some p) x)), b)).
Proof. intros. unfold respawn1. cbn [fst snd]. eauto. Qed.

Lemma respawn1_none : forall full x, respawn1 full None x =
  (if N.eqb full 0 then Some magic_tile else Some (mkDP distillation_patch connected4), full, N.eqb full 0).
Proof. intros. unfold respawn1. cbn. rewrite andb_true_r. reflexivity. Qed.

Lemma respawn1_dist : forall full p x, p_type (dp p) = TDistillation ->
  respawn1 full (Some p) x =
  (if N.eqb (u32_dec x) 0 then Some magic_tile else Some p, u32_dec x, N.eqb (u32_dec x) 0).
Proof. intros full p x H. unfold respawn1. rewrite H. cbn. rewrite andb_true_r. reflexivity. Qed.

(** ** What a step does to each tile *)

Lemma advance_tiles : forall L s s', layout_wf L -> sized (l_furthest L) s ->
  length (s_timers s) = length (l_times L) ->
  (if l_magic_reserved L then reserved_step L s s' else exists new, factory_step L s s' new) ->
  (forall c p, tile_at s c = Some p -> ~ consumed (p_act (dp p)) ->
     p_type (dp p) = TQubit \/ p_type (dp p) = TPreparedState \/ ~ In c (l_reserved L) ->
     exists p', tile_at s' c = Some p' /\ same_patch_later p p')
  /\ (forall c p, tile_at s c = Some p -> ~ consumed (p_act (dp p)) ->
     (exists p', tile_at s' c = Some p' /\ same_patch_later p p')
     \/ (tile_at s' c = Some magic_tile /\ In c (s_magic s')))
  /\ (forall c, vacated s c ->
     (tile_at s' c = None /\ ~ In c (l_reserved L))
     \/ (tile_at s' c = Some magic_tile /\ In c (s_magic s')
         /\ (In c (l_reserved L) \/ exists q, In q (l_queues L) /\ In c q))
     \/ (tile_at s' c = Some (mkDP distillation_patch connected4) /\ In c (l_reserved L)))
  /\ (forall c, In c (s_magic s) -> In c (s_magic s'))
  /\ (forall c, In c (s_magic s') -> In c (s_magic s) \/ tile_at s' c = Some magic_tile).
Proof.
  intros L s s' W Hs Hl St. destruct (l_magic_reserved L) eqn:Em.
  - destruct St as (H1 & H2 & H3).
    assert (R : forall c, In c (l_reserved L) -> exists full x, (exists k, nth_error (l_reserved L) k = Some c /\
        nth_error (s_timers s) k = Some x /\ nth_error (l_times L) k = Some full)
        /\ tile_at s' c = fst (fst (respawn1 full (tile_at (aged s) c) x))
        /\ (In c (s_magic s') <-> In c (s_magic s) \/ snd (respawn1 full (tile_at (aged s) c) x) = true)).
    { intros c Hc. destruct (reserved_index L c W Hc) as (k & full & E1 & E2).
      destruct (nth_error (s_timers s) k) as [x|] eqn:E3.
      2:{ apply nth_error_None in E3. assert (k < length (l_times L))%nat by (apply nth_error_Some; congruence). lia. }
      exists full, x. split; [eauto|]. destruct (H3 k c full x E1 E3 E2) as (h1 & _ & h3). auto. }
    split; [|split; [|split; [|split]]].
    + intros c p Hp Hn Hk. destruct (aged_stays s c p Hp Hn) as [p' [Ha Hsame]].
      exists p'. split; auto. destruct (in_dec cell_eq_dec c (l_reserved L)) as [Hc|Hc].
      * destruct (R c Hc) as (full & x & _ & Ht & _). rewrite Ht, Ha, respawn1_kept; auto.
        destruct Hsame as (-> & _). tauto.
      * rewrite H1 by auto. auto.
    + intros c p Hp Hn. destruct (aged_stays s c p Hp Hn) as [p' [Ha Hsame]].
      destruct (in_dec cell_eq_dec c (l_reserved L)) as [Hc|Hc].
      * destruct (R c Hc) as (full & x & _ & Ht & Hm). rewrite Ha in *.
        destruct (respawn1_some full p' x) as [b E]. rewrite E in Ht, Hm. cbn [fst snd] in *.
        destruct b; [right|left; eauto]. split; [auto|]. apply Hm. auto.
      * left. exists p'. rewrite H1 by auto. auto.
    + intros c Hv. apply vacated_aged in Hv.
      destruct (in_dec cell_eq_dec c (l_reserved L)) as [Hc|Hc].
      * right. destruct (R c Hc) as (full & x & _ & Ht & Hm). rewrite Hv, respawn1_none in Ht, Hm. cbn [fst snd] in *.
        destruct (N.eqb full 0); [left|right]; auto. split; [auto|]. split; [apply Hm; auto|auto].
      * left. rewrite H1 by auto. auto.
    + intros c Hm. destruct (in_dec cell_eq_dec c (l_reserved L)) as [Hc|Hc].
      * destruct (R c Hc) as (full & x & _ & _ & H). apply H. auto.
      * apply H2; auto.
    + intros c Hm. destruct (in_dec cell_eq_dec c (l_reserved L)) as [Hc|Hc].
      * destruct (R c Hc) as (full & x & _ & Ht & H). apply H in Hm as [Hm|Hm]; auto. right.
        rewrite Ht. unfold respawn1 in *. cbn [fst snd] in *. rewrite Hm. auto.
      * left. apply H2; auto.
  - assert (Er : l_reserved L = []).
    { destruct (l_reserved L) eqn:E; auto. assert (l_magic_reserved L = true) by (apply (lw_reserved L W); congruence).
      congruence. }
    rewrite Er. destruct St as (new & Dv & _). destruct Dv as [d1 d2 d3 d4 d5 d6].
    assert (K : forall c p, tile_at (aged s) c = Some p -> tile_at s' c = Some p).
    { intros c p H. destruct (in_dec cell_eq_dec c (map snd new)) as [Hd|Hd].
      - apply in_map_iff in Hd as [[j c1] [h5 h6]]. cbn in h5. subst c1.
        apply d3 in h6 as (_ & _ & h6 & _). congruence.
      - rewrite d4; auto. }
    assert (N1 : forall c, In c (map snd new) -> tile_at s' c = Some magic_tile /\ exists q, In q (l_queues L) /\ In c q).
    { intros c Hd. apply in_map_iff in Hd as [[j c1] [h5 h6]]. cbn in h5. subst c1.
      apply d3 in h6 as (_ & [q [h1 h2]] & _ & h4). split; auto. exists q. split; auto. eapply nth_error_In; eauto. }
    split; [|split; [|split; [|split]]].
    + intros c p Hp Hn _. destruct (aged_stays s c p Hp Hn) as [p' [Ha Hsame]]. eauto.
    + intros c p Hp Hn. destruct (aged_stays s c p Hp Hn) as [p' [Ha Hsame]]. left. eauto.
    + intros c Hv. apply vacated_aged in Hv. destruct (in_dec cell_eq_dec c (map snd new)) as [Hd|Hd].
      * right; left. destruct (N1 c Hd) as [h1 h2]. split; [auto|]. split; [apply d6; auto|auto].
      * left. rewrite d4 by auto. split; auto.
    + intros c Hm. apply d6. auto.
    + intros c Hm. apply d6 in Hm as [Hm|Hm]; [auto|]. right. apply N1; auto.
Qed.

Lemma advance_ids : forall L s s' c id, layout_wf L -> sized (l_furthest L) s ->
  length (s_timers s) = length (l_times L) -> advance_slice L s = Ok s' ->
  carries s' c id -> carries s c id.
Proof.
  intros L s s' c id W Hs Hl E [p [Hp Hi]].
  destruct (advance_ok L s W Hs Hl) as (s1 & E1 & _ & _ & _ & _ & _ & _ & St).
  assert (s1 = s') by congruence. subst s1.
  destruct (advance_tiles L s s' W Hs Hl St) as (_ & T2 & T3 & _).
  destruct (tile_at (aged s) c) as [q|] eqn:Ea.
  - destruct (aged_back s c q Ea) as (p0 & H0 & Hsame).
    assert (Hn : ~ consumed (p_act (dp p0))).
    { intro Hc. assert (vacated s c) by (right; eauto). apply vacated_aged in H. congruence. }
    destruct (T2 c p0 H0 Hn) as [(p' & H1 & H2)|(H1 & _)].
    + exists p0. split; auto. destruct H2 as (_ & H2 & _). congruence.
    + rewrite H1 in Hp. inversion Hp; subst. discriminate.
  - apply vacated_aged in Ea. destruct (T3 c Ea) as [(H & _)|[(H & _)|(H & _)]]; rewrite H in Hp;
      inversion Hp; subst; discriminate.
Qed.

(** ** Timers *)

Lemma count_down_period : forall T n, (0 < T < 2 ^ 32)%N ->
  count_down T (T - n mod T)%N = (T - (n + 1) mod T)%N.
Proof.
  intros T n HT. pose proof (N.mod_lt n T ltac:(lia)) as Hm.
  assert (E : ((n + 1) mod T = if N.eqb (n mod T + 1) T then 0 else n mod T + 1)%N).
  { rewrite <- N.add_mod_idemp_l by lia. destruct (N.eqb_spec (n mod T + 1) T) as [->|H].
    - apply N.mod_same. lia.
    - apply N.mod_small. lia. }
  rewrite E. unfold count_down, u32_dec.
  destruct (N.eqb_spec (T - n mod T) 0); [lia|].
  destruct (N.eqb_spec (T - n mod T - 1) 0), (N.eqb_spec (n mod T + 1) T); lia.
Qed.

Lemma due_period : forall T n, (0 < T < 2 ^ 32)%N ->
  u32_dec (T - n mod T)%N = 0%N <-> ((n + 1) mod T = 0)%N.
Proof.
  intros T n HT. pose proof (N.mod_lt n T ltac:(lia)) as Hm.
  assert (E : ((n + 1) mod T = if N.eqb (n mod T + 1) T then 0 else n mod T + 1)%N).
  { rewrite <- N.add_mod_idemp_l by lia. destruct (N.eqb_spec (n mod T + 1) T) as [->|H].
    - apply N.mod_same. lia.
    - apply N.mod_small. lia. }
  rewrite E. unfold u32_dec. destruct (N.eqb_spec (T - n mod T) 0); [lia|].
  destruct (N.eqb_spec (n mod T + 1) T); lia.
Qed.

Lemma history_timers : forall L st mid n, layout_wf L -> history L st mid ->
  length (s_timers (mid n)) = length (l_times L).
Proof.
  intros L st mid n W [H0 H]. induction n as [|n IH].
  - destruct (H 0%nat) as (_ & E & _). congruence.
  - destruct (H (S n)) as (_ & E & _). rewrite E. destruct (H n) as (S1 & E1 & A1).
    destruct (advance_ok L (mid n) W S1 IH) as (s' & E' & _ & Hl & _). congruence.
Qed.

Lemma history_step : forall L st mid n, layout_wf L -> history L st mid ->
  if l_magic_reserved L then reserved_step L (mid n) (st (S n)) else exists new, factory_step L (mid n) (st (S n)) new.
Proof.
  intros L st mid n W Hh. pose proof (history_timers L st mid n W Hh) as Hl. destruct Hh as [_ H].
  destruct (H n) as (S1 & E1 & A1).
  destruct (advance_ok L (mid n) W S1 Hl) as (s' & E' & _ & _ & _ & _ & _ & _ & St).
  assert (s' = st (S n)) by congruence. subst. auto.
Qed.

Lemma factory_timer : forall L st mid i T, layout_wf L -> history L st mid -> l_magic_reserved L = false ->
  nth_error (l_times L) i = Some T -> (0 < T)%N ->
  forall n, nth_error (s_timers (mid n)) i = Some (T - N.of_nat n mod T)%N.
Proof.
  intros L st mid i T W Hh Em HT Hpos.
  assert (Hu : (T < 2 ^ 32)%N).
  { pose proof (lw_u32 L W) as Hu. rewrite Forall_forall in Hu. apply Hu. eapply nth_error_In; eauto. }
  induction n as [|n IH].
  - destruct Hh as [H0 H]. destruct (H 0%nat) as (_ & E & _). rewrite E, H0, HT.
    change (N.of_nat 0) with 0%N. rewrite N.mod_0_l, N.sub_0_r by lia. auto.
  - pose proof (history_step L st mid n W Hh) as St. rewrite Em in St. destruct St as (new & _ & T1).
    destruct Hh as [H0 H]. destruct (H (S n)) as (_ & E & _). rewrite E, (T1 i _ T IH HT).
    rewrite count_down_period by lia. do 3 f_equal. lia.
Qed.

Lemma factory_timer_zero : forall L st mid i, layout_wf L -> history L st mid -> l_magic_reserved L = false ->
  nth_error (l_times L) i = Some 0%N ->
  forall n, (N.of_nat n < 2 ^ 32)%N ->
  nth_error (s_timers (mid n)) i = Some ((2 ^ 32 - N.of_nat n) mod 2 ^ 32)%N.
Proof.
  intros L st mid i W Hh Em HT. induction n as [|n IH]; intros Hn.
  - destruct Hh as [H0 H]. destruct (H 0%nat) as (_ & E & _). rewrite E, H0, HT.
    change (N.of_nat 0) with 0%N. rewrite N.sub_0_r, N.mod_same by lia. auto.
  - pose proof (history_step L st mid n W Hh) as St. rewrite Em in St. destruct St as (new & _ & T1).
    destruct Hh as [H0 H]. destruct (H (S n)) as (_ & E & _).
    rewrite E, (T1 i _ 0%N (IH ltac:(lia)) HT). f_equal.
    rewrite (N.mod_small (2 ^ 32 - N.of_nat (S n))) by lia. unfold count_down, u32_dec.
    destruct (N.eq_dec (N.of_nat n) 0) as [E0|E0].
    + rewrite E0, N.sub_0_r, N.mod_same by lia. rewrite N.eqb_refl.
      destruct (N.eqb_spec (2 ^ 32 - 1) 0); lia.
    + rewrite N.mod_small by lia. destruct (N.eqb_spec (2 ^ 32 - N.of_nat n) 0); [lia|].
      destruct (N.eqb_spec (2 ^ 32 - N.of_nat n - 1) 0); lia.
Qed.

Lemma reserved_count : forall L st mid k c T, layout_wf L -> history L st mid -> l_magic_reserved L = true ->
  nth_error (l_reserved L) k = Some c -> nth_error (l_times L) k = Some T ->
  (forall n, distilling (st n) c -> tile_at (mid n) c = tile_at (st n) c) ->
  forall x n, distilling (mid n) c -> nth_error (s_timers (mid n)) k = Some (N.of_nat (S x)) ->
  (forall j, (0 < j <= x)%nat -> distilling (st (n + j)%nat) c)
  /\ tile_at (st (n + S x)%nat) c = Some magic_tile /\ In c (s_magic (st (n + S x)%nat)).
Proof.
  intros L st mid k c T W Hh Em Hk HT Hq. induction x as [|x IH]; intros n (p & Hp & Hty & Hact) Hx.
  - pose proof (history_step L st mid n W Hh) as St. rewrite Em in St. destruct St as (_ & _ & R).
    destruct (R k c T _ Hk Hx HT) as (R1 & _ & R3).
    destruct (aged_stays (mid n) c p Hp) as (p' & Ha & (Hty' & _)).
    { rewrite Hact. intros [h|h]; discriminate. }
    rewrite Ha, respawn1_dist in R1, R3 by congruence. cbn in R1, R3.
    split; [intros; lia|]. rewrite Nat.add_1_r. split; auto. apply R3. auto.
  - pose proof (history_step L st mid n W Hh) as St. rewrite Em in St. destruct St as (_ & _ & R).
    destruct (R k c T _ Hk Hx HT) as (R1 & R2 & _).
    destruct (aged_stays (mid n) c p Hp) as (p' & Ha & Hsame).
    { rewrite Hact. intros [h|h]; discriminate. }
    assert (Hty' : p_type (dp p') = TDistillation) by (destruct Hsame as (-> & _); auto).
    assert (Hact' : p_act (dp p') = ADistillation).
    { destruct Hsame as (_ & _ & _ & _ & -> & _). rewrite Hact. auto. }
    assert (Hd : u32_dec (N.of_nat (S (S x))) = N.of_nat (S x)) by (unfold u32_dec; destruct (N.eqb_spec (N.of_nat (S (S x))) 0); lia).
    rewrite Ha, respawn1_dist, Hd in R1, R2 by congruence. cbn [fst snd] in R1, R2.
    assert (Hz : N.eqb (N.of_nat (S x)) 0 = false) by (apply N.eqb_neq; lia). rewrite Hz in R1.
    assert (D1 : distilling (st (S n)) c) by (exists p'; auto).
    assert (D2 : distilling (mid (S n)) c) by (unfold distilling in *; rewrite Hq; auto).
    destruct (IH (S n) D2) as (I1 & I2 & I3).
    { destruct Hh as [_ H]. destruct (H (S n)) as (_ & -> & _). auto. }
    split; [|replace (n + S (S x))%nat with (S n + S x)%nat by lia; auto].
    intros j Hj. destruct j as [|[|j]]; [lia|rewrite Nat.add_1_r; auto|].
    replace (n + S (S j))%nat with (S n + S j)%nat by lia. apply I1. lia.
Qed.

Lemma reserved_emptied : forall L st mid k c T n, layout_wf L -> history L st mid -> l_magic_reserved L = true ->
  nth_error (l_reserved L) k = Some c -> nth_error (l_times L) k = Some T -> (0 < T)%N ->
  vacated (mid n) c ->
  distilling (st (S n)) c /\ nth_error (s_timers (st (S n))) k = Some T.
Proof.
  intros L st mid k c T n W Hh Em Hk HT Hpos Hv.
  pose proof (history_step L st mid n W Hh) as St. rewrite Em in St. destruct St as (_ & _ & R).
  pose proof (history_timers L st mid n W Hh) as Hl.
  destruct (nth_error (s_timers (mid n)) k) as [x|] eqn:Ex.
  2:{ apply nth_error_None in Ex. assert (k < length (l_times L))%nat by (apply nth_error_Some; congruence). lia. }
  destruct (R k c T x Hk Ex HT) as (R1 & R2 & _).
  apply vacated_aged in Hv. rewrite Hv, respawn1_none in R1, R2.
  assert (Hz : N.eqb T 0 = false) by (apply N.eqb_neq; lia). rewrite Hz in *. cbn [fst snd] in *.
  split; auto. unfold distilling. eexists. split; [exact R1|]. split; reflexivity.
Qed.
