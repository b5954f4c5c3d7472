(** C44: the keys of the objects in the output are in the order of the characters, each once, so that equal slices are written alike. *)
From Coq Require Import Sorted.
From Verif Require Import Base TextModel TextProofs PatchesModel InstrProofs LayoutModel SliceModel SliceProofs OutputModel.
Open Scope nat_scope.

(** The order of words: a word comes before its continuations, and otherwise the first character that differs decides. *)
Definition before (a b : text) : Prop :=
  exists p, (exists x r, a = p /\ b = p ++ x :: r) \/ exists x y ra rb, a = p ++ x :: ra /\ b = p ++ y :: rb /\ (N_of_ascii x < N_of_ascii y)%N.
Inductive ordered : json -> Prop :=
| or_null : ordered JNull
| or_bool b : ordered (JBool b)
| or_num t : ordered (JNum t)
| or_str t : ordered (JStr t)
| or_arr l : Forall ordered l -> ordered (JArr l)
| or_obj l : Sorted (fun a b => before (fst a) (fst b)) l -> Forall (fun kv => ordered (snd kv)) l -> ordered (JObj l).

Lemma ltb_before : forall a b, text_ltb a b = true -> before a b.
Proof.
  induction a as [|x a IH]; intros [|y b] H; try discriminate H; [exists []; left; exists y, b; auto|]. cbn [text_ltb] in H. destruct (Ascii.eqb_spec x y) as [->|Ne].
  - destruct (IH b H) as (p & [(z & r & -> & ->)|(z & w & ra & rb & -> & -> & Hz)]); exists (y :: p); [left; exists z, r; auto|right; exists z, w, ra, rb; auto].
  - exists []. right. exists x, y, a, b. apply N.ltb_lt in H. auto.
Qed.
Lemma ltb_total : forall a b, text_eqb a b = false -> text_ltb a b = false -> text_ltb b a = true.
Proof.
  intros a b H. apply text_eqb_neq in H. revert b H. induction a as [|x a IH]; intros [|y b] Ne H; try discriminate H; [contradiction|reflexivity|]. cbn [text_ltb] in *. rewrite (Ascii.eqb_sym y x). destruct (Ascii.eqb_spec x y) as [->|Nx].
  - apply IH; [intros ->; now apply Ne|exact H].
  - apply N.ltb_ge in H. apply N.ltb_lt. assert (N_of_ascii x <> N_of_ascii y) by (intros E; apply Nx; rewrite <- (ascii_N_embedding x), <- (ascii_N_embedding y); congruence). lia.
Qed.
(** For all keys: writing a field keeps the order. *)
Lemma put_sorted : forall k v l, Sorted (fun a b : text * json => before (fst a) (fst b)) l -> Sorted (fun a b => before (fst a) (fst b)) (fields_put k v l).
Proof.
  intros k v l. induction l as [|[k' v'] l IH]; intros H; cbn [fields_put]; [repeat constructor|]. inversion H as [|? ? Hs Hh]; subst. destruct (text_eqb k k') eqn:E.
  - apply text_eqb_eq in E. subst k'. constructor; [exact Hs|]. inversion Hh; subst; constructor; assumption.
  - destruct (text_ltb k k') eqn:Lt; [constructor; [exact H|constructor; now apply ltb_before]|]. pose proof (ltb_before _ _ (ltb_total _ _ E Lt)) as B. constructor; [now apply IH|].
    destruct l as [|[k2 v2] l]; cbn [fields_put]; [now constructor|]. destruct (text_eqb k k2); [now constructor|]. destruct (text_ltb k k2); constructor; [exact B|]. inversion Hh; assumption.
Qed.
Lemma put_ordered : forall k v l, ordered v -> Forall (fun kv : text * json => ordered (snd kv)) l -> Forall (fun kv => ordered (snd kv)) (fields_put k v l).
Proof.
  intros k v l Hv. induction l as [|[k' v'] l IH]; intros H; cbn [fields_put]; [constructor; auto|]. inversion H; subst. destruct (text_eqb k k'); [constructor; auto|]. destruct (text_ltb k k'); constructor; auto.
Qed.
Lemma field_ordered : forall k v j j', ordered v -> ordered j -> put_field k v j = Ok j' -> ordered j'.
Proof.
  intros k v j j' Hv Hj H. destruct j; cbn [put_field] in H; try discriminate H; injection H as <-; [constructor; [repeat constructor|constructor; auto]|]. inversion Hj; subst. constructor; [now apply put_sorted|now apply put_ordered].
Qed.
Lemma index_ordered : forall i f j j', (forall x y, ordered x -> f x = Ok y -> ordered y) -> ordered j -> at_index i f j = Ok j' -> ordered j'.
Proof.
  intros i f j j' Hf Hj H. unfold at_index in H. destruct (i <? 0)%Z; [discriminate|].
  assert (G : forall l, Forall ordered l -> (do x <- idx (l ++ repeat JNull (S (Z.to_nat i) - length l)) (Z.to_nat i) ;; do y <- f x ;; Ok (JArr (set_row (l ++ repeat JNull (S (Z.to_nat i) - length l)) (Z.to_nat i) y))) = Ok j' -> ordered j').
  { intros l Fl E. set (l' := l ++ _) in E. assert (Fl' : Forall ordered l') by (apply Forall_app; split; [exact Fl|apply Forall_forall; intros x Hx; apply repeat_spec in Hx; subst x; constructor]).
    unfold idx in E. destruct (nth_error l' (Z.to_nat i)) as [x|] eqn:Ex; [|discriminate]. cbn [bind] in E. destruct (f x) as [y| | |] eqn:Ey; try discriminate. cbn [bind] in E. injection E as <-.
    constructor. apply Forall_set_row; [exact Fl'|]. apply (Hf x y); [|exact Ey]. rewrite Forall_forall in Fl'. apply Fl'. eapply nth_error_In. exact Ex. }
  destruct j; try discriminate H; [apply (G []); [constructor|exact H]|]. inversion Hj; subst. now apply (G l).
Qed.
Lemma cell_ordered : forall c f j j', (forall x y, ordered x -> f x = Ok y -> ordered y) -> ordered j -> at_cell c f j = Ok j' -> ordered j'.
Proof. intros c f j j' Hf Hj H. unfold at_cell in H. refine (index_ordered _ _ _ _ _ Hj H). intros x y Hx Hy. exact (index_ordered _ _ _ _ Hf Hx Hy). Qed.
Lemma patch_ordered : forall p j, patch_json p = Ok j -> ordered j.
Proof.
  intros p j H. unfold patch_json in H. assert (E : ordered (edges_json (db p))).
  { constructor; [repeat constructor|]. constructor; [|constructor]. cbn [snd]. constructor; [|repeat constructor]. repeat (constructor; try (apply ltb_before; reflexivity)). }
  destruct (match p_op (dp p) with Some n => put_field (lit "operation_id") (JStr (print_N n)) (edges_json (db p)) | None => Ok (edges_json (db p)) end) as [j1| | |] eqn:E1; try discriminate. cbn [bind] in H.
  assert (O1 : ordered j1) by (destruct (p_op (dp p)); [refine (field_ordered _ _ _ _ _ E E1); constructor|injection E1 as <-; exact E]).
  destruct (put_field (lit "patch_type") (JStr (type_name (p_type (dp p)))) j1) as [j2| | |] eqn:E2; try discriminate. cbn [bind] in H. assert (O2 : ordered j2) by (refine (field_ordered _ _ _ _ _ O1 E2); constructor).
  destruct (put_field (lit "activity") (activity_json (p_act (dp p))) j2) as [j3| | |] eqn:E3; try discriminate. cbn [bind] in H.
  assert (O3 : ordered j3) by (refine (field_ordered _ _ _ _ _ O2 E3); constructor; [repeat constructor|constructor; [|constructor]; destruct (p_act (dp p)); constructor]).
  refine (field_ordered _ _ _ _ _ O3 H). constructor.
Qed.

(** Whatever the slice and the layout: the keys of every object of what is written stand in the order of words, each once. *)
Theorem C44_keys : forall L s j, slice_json L s = Ok j -> ordered j.
Proof.
  intros L s j H. unfold slice_json in H. destruct (foldM draw_tile (tiles s) (blank_grid (l_furthest L))) as [g| | |] eqn:G; try discriminate. cbn [bind] in H.
  assert (Og : ordered g).
  { refine (foldM_inv draw_tile ordered _ _ _ _ _ G).
    - intros a [c t] b Ha E. unfold draw_tile in E. cbn [fst snd] in E. destruct t as [p|]; [|injection E as <-; exact Ha]. destruct (patch_json p) as [x| | |] eqn:Ep; try discriminate. cbn [bind] in E.
      refine (cell_ordered _ _ _ _ _ Ha E). intros y z _ Ez. injection Ez as <-. exact (patch_ordered p x Ep).
    - constructor. apply Forall_forall. intros x Hx. apply repeat_spec in Hx. subst x. constructor. apply Forall_forall. intros x Hx. apply repeat_spec in Hx. subst x. constructor. }
  unfold annotate in H. destruct (foldM (annotate_region s) (l_regions L) (g, 0)) as [[j' k]| | |] eqn:A; try discriminate. cbn [bind] in H. injection H as <-.
  refine (foldM_inv (annotate_region s) (fun jk => ordered (fst jk)) _ _ _ _ _ A); [|exact Og]. intros [a n] R [b m] Ha E. unfold annotate_region in E. cbn [fst] in *. destruct R as [|x R]; [discriminate|]. cbn [bind] in E.
  destruct (idx (s_timers s) n) as [t| | |]; try discriminate. cbn [bind] in E. destruct (at_cell _ _ a) as [y| | |] eqn:Ey; try discriminate. cbn [bind] in E. injection E as <- <-.
  refine (cell_ordered _ _ _ _ _ Ha Ey). intros u v Hu Hv. refine (field_ordered _ _ _ _ _ Hu Hv). constructor.
Qed.
Print Assumptions C44_keys.
(** The same for a map with any keys: a field written into an ordered object leaves it ordered, also where one key begins with another. *)
Theorem C44_put : forall k v j j', ordered v -> ordered j -> put_field k v j = Ok j' -> ordered j'.
Proof. exact field_ordered. Qed.
Print Assumptions C44_put.
Example C44_keys_ex : exists L s j p, layout_from_spec (lit "QrQ") (mkDO true 1) = Ok L /\ new_slice L [4; 9]%N = Ok s /\ slice_json L s = Ok (JArr [JArr [JObj p; JNull; j]])
  /\ map fst p = [lit "activity"; lit "edges"; lit "patch_type"; lit "text"] /\ before (lit "text") (lit "texts") /\ ~ before (lit "texts") (lit "text").
Proof.
  do 4 eexists. split; [vm_compute; reflexivity|]. split; [vm_compute; reflexivity|]. split; [vm_compute; reflexivity|]. split; [reflexivity|]. split; [now apply ltb_before|].
  intros (p & [(x & r & E1 & E2)|(x & y & ra & rb & E1 & E2 & H)]).
  - apply (f_equal (@length _)) in E2. rewrite <- E1, app_length in E2. cbn in E2. lia.
  - destruct p as [|c1 [|c2 [|c3 [|c4 [|c5 p]]]]]; cbn in E1, E2; try discriminate; injection E1; injection E2; intros; subst; try lia; destruct p; discriminate.
Qed.
