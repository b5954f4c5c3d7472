From Verif Require Import Base TextModel TextSpec TextProofs PatchesModel InstrModel InstrSpec.

Lemma bind_ok {A B} (x : outcome A) (f : A -> outcome B) b :
  bind x f = Ok b <-> exists a, x = Ok a /\ f a = Ok b.
Proof.
  destruct x; cbn; split; intros H; try discriminate.
  - eauto.
  - destruct H as (a' & H & H'). now inversion H; subst.
  - destruct H as (a' & H & H'). discriminate.
  - destruct H as (a' & H & H'). discriminate.
  - destruct H as (a' & H & H'). discriminate.
Qed.

Lemma pauli_eqb_eq a b : pauli_eqb a b = true <-> a = b.
Proof. unfold pauli_eqb. destruct (pauli_eq_dec a b); intuition congruence. Qed.

Lemma pauli_from_to p : pauli_from_string (pauli_to_string p) = Ok p.
Proof. destruct p; reflexivity. Qed.
Lemma pauli_from_string_iff s p : pauli_from_string s = Ok p <-> s = pauli_to_string p.
Proof.
  split; [|intros ->; apply pauli_from_to].
  unfold pauli_from_string.
  repeat match goal with |- context [if text_eqb s ?t then _ else _] => destruct (text_eqb s t) eqn:?E end;
  intros H; inversion H; subst; match goal with E : text_eqb s _ = true |- _ => apply text_eqb_eq in E; exact E end.
Qed.
Lemma pauli_from_string_total s :
  (exists p, pauli_from_string s = Ok p) \/ pauli_from_string s = Throw LogicError.
Proof.
  unfold pauli_from_string.
  repeat match goal with |- context [if text_eqb s ?t then _ else _] => destruct (text_eqb s t) end; eauto.
Qed.
Lemma pauli_to_string_notin p c : is_digit c = true \/ In c (lit " :,-") -> ~ In c (pauli_to_string p).
Proof.
  intros H Hin. destruct p; cbn in Hin; destruct Hin as [<-|[]]; cbn in H; destruct H as [H|H];
  try discriminate H; repeat destruct H as [H|H]; try discriminate; try contradiction.
Qed.

Lemma parse_patch_id_print n rest : small_id n -> no_digit_head rest ->
  parse_patch_id (print_N n ++ rest) = Ok n.
Proof.
  intros Hn Hr. unfold parse_patch_id. rewrite from_chars_print by assumption.
  f_equal. unfold small_id in Hn. rewrite Z.mod_small.
  - apply N2Z.id.
  - change (2 ^ 32)%Z with (Z.of_N (2 ^ 32)). change (2 ^ 31)%N with 2147483648%N in Hn.
    change (2 ^ 32)%N with 4294967296%N. lia.
Qed.
Lemma parse_patch_id_print0 n : small_id n -> parse_patch_id (print_N n) = Ok n.
Proof. intros H. rewrite <- (app_nil_r (print_N n)). apply parse_patch_id_print; [exact H|exact I]. Qed.

(** big printed ids are rejected *)
Lemma from_chars_print_big n rest : ~ small_id n -> no_digit_head rest ->
  from_chars_int (print_N n ++ rest) = FCRange.
Proof.
  intros Hn Hr. unfold from_chars_int.
  destruct (print_N n ++ rest) as [|c s] eqn:E.
  { apply app_eq_nil in E. destruct E as [E _]. now apply print_N_nonempty in E. }
  assert (is_digit c = true) as Hc.
  { destruct (print_N n) as [|c' s'] eqn:Ep; [now apply print_N_nonempty in Ep|].
    inversion E; subst. pose proof (print_N_digits n) as HF. rewrite Ep in HF. inversion HF; assumption. }
  assert (Ascii.eqb c "-" = false) as ->.
  { destruct (Ascii.eqb_spec c "-"); [subst c; discriminate Hc|reflexivity]. }
  rewrite <- E, read_print by exact Hr.
  assert (((- 2 ^ 31 <=? Z.of_N n) && (Z.of_N n <? 2 ^ 31))%Z = false) as ->; [|reflexivity].
  unfold small_id in Hn.
  assert (2 ^ 31 <= Z.of_N n)%Z by (change (2 ^ 31)%Z with (Z.of_N (2 ^ 31)); lia). lia.
Qed.
Lemma parse_patch_id_print_inv n m : parse_patch_id (print_N n) = Ok m -> small_id n.
Proof.
  unfold parse_patch_id. intros H.
  destruct (N.lt_ge_cases n (2 ^ 31)) as [L|L]; [exact L|].
  rewrite <- (app_nil_r (print_N n)), from_chars_print_big in H; [discriminate|unfold small_id; lia|exact I].
Qed.

(** ** Fields of printed instructions *)
Definition no_space (f : text) : Prop := ~ In " "%char f.
Definition pair_text (x : N * pauli) : text := print_N (fst x) ++ lit ":" ++ pauli_to_string (snd x).

Lemma print_N_no_space n : no_space (print_N n).
Proof. apply print_N_notin. reflexivity. Qed.
Lemma pauli_no_space p : no_space (pauli_to_string p).
Proof. apply pauli_to_string_notin. right. cbn. tauto. Qed.
Lemma pair_no_space x : no_space (pair_text x).
Proof.
  unfold pair_text. intros H. apply in_app_or in H. destruct H as [H|H].
  - now apply print_N_no_space in H.
  - apply in_app_or in H. destruct H as [H|H].
    + cbn in H. destruct H as [H|[]]. discriminate.
    + now apply pauli_no_space in H.
Qed.
Lemma pair_no_comma x : ~ In ","%char (pair_text x).
Proof.
  unfold pair_text. intros H. apply in_app_or in H. destruct H as [H|H].
  - apply print_N_notin in H; [exact H|reflexivity].
  - apply in_app_or in H. destruct H as [H|H].
    + cbn in H. destruct H as [H|[]]. discriminate.
    + apply pauli_to_string_notin in H; [exact H|]. right. cbn. tauto.
Qed.
Lemma pair_nonempty x : pair_text x <> [].
Proof. unfold pair_text. intros H. apply app_eq_nil in H. destruct H as [H _]. now apply print_N_nonempty in H. Qed.
Lemma split_pair x : split_on (pair_text x) ":" = [print_N (fst x); pauli_to_string (snd x)].
Proof.
  change (pair_text x) with (intercalate ":" [print_N (fst x); pauli_to_string (snd x)]).
  apply split_on_intercalate; [discriminate|discriminate|].
  repeat constructor; [apply print_N_notin; reflexivity|apply pauli_to_string_notin; right; cbn; tauto].
Qed.
Lemma parse_pair_text x : small_id (fst x) -> parse_pair (pair_text x) = Ok x.
Proof.
  intros H. unfold parse_pair. rewrite split_pair, parse_patch_id_print0 by exact H. cbn [bind].
  rewrite pauli_from_to. cbn. now destruct x.
Qed.
Lemma parse_pair_text_inv x y : parse_pair (pair_text x) = Ok y -> small_id (fst x).
Proof.
  unfold parse_pair. rewrite split_pair. intros H.
  apply bind_ok in H. destruct H as (k & H & _). now apply parse_patch_id_print_inv in H.
Qed.

Lemma split_pairs obs : split_on (join (map pair_text obs) (lit ",")) "," = map pair_text obs.
Proof.
  change (lit ",") with [","%char]. rewrite join_intercalate.
  destruct obs as [|x obs]; [reflexivity|].
  apply split_on_intercalate; [discriminate| |].
  - destruct obs; [|discriminate]. cbn [map]. intros H. inversion H as [H']. now apply pair_nonempty in H'.
  - apply Forall_forall. intros f Hf. apply in_map_iff in Hf. destruct Hf as (y & <- & _). apply pair_no_comma.
Qed.

Lemma omap_insert_fresh {A} k (v : A) m : ~ In k (map fst m) -> omap_insert k v m = m ++ [(k, v)].
Proof.
  induction m as [|[k' v'] m IH]; intros H; cbn; [reflexivity|].
  destruct (N.eqb_spec k k') as [->|Hne]; [exfalso; apply H; left; reflexivity|].
  rewrite IH; [reflexivity|]. intros Hin; apply H; right; exact Hin.
Qed.
Lemma omap_insert_keys {A} k (v : A) m :
  map fst (omap_insert k v m) = if memN k (map fst m) then map fst m else map fst m ++ [k].
Proof.
  induction m as [|[k' v'] m IH]; cbn; [reflexivity|].
  destruct (N.eqb_spec k k') as [->|Hne]; cbn; [reflexivity|].
  rewrite IH. fold (memN k (map fst m)). destruct (memN k (map fst m)); reflexivity.
Qed.
Lemma memN_In x l : memN x l = true <-> In x l.
Proof.
  unfold memN. rewrite existsb_exists. split.
  - intros (y & H & E). apply N.eqb_eq in E. now subst.
  - intros H. exists x. split; [exact H|apply N.eqb_refl].
Qed.
Lemma memN_notIn x l : memN x l = false <-> ~ In x l.
Proof. rewrite <- memN_In. destruct (memN x l); intuition congruence. Qed.
Lemma NoDup_snoc {A} (l : list A) x : NoDup l -> ~ In x l -> NoDup (l ++ [x]).
Proof.
  intros H1 H2. apply NoDup_rev in H1. rewrite <- (rev_involutive (l ++ [x])). apply NoDup_rev.
  rewrite rev_app_distr. cbn. constructor; [rewrite <- in_rev; exact H2|exact H1].
Qed.
Lemma omap_insert_nodup {A} k (v : A) m : NoDup (map fst m) -> NoDup (map fst (omap_insert k v m)).
Proof.
  intros H. rewrite omap_insert_keys. destruct (memN k (map fst m)) eqn:E; [exact H|].
  apply NoDup_snoc; [exact H|now apply memN_notIn].
Qed.
Lemma oset_insert_In x y l : In y (oset_insert x l) <-> y = x \/ In y l.
Proof.
  unfold oset_insert. destruct (memN x l) eqn:E.
  - apply memN_In in E. intuition congruence.
  - rewrite in_app_iff. cbn. intuition congruence.
Qed.
Lemma oset_insert_nodup x l : NoDup l -> NoDup (oset_insert x l).
Proof.
  intros H. unfold oset_insert. destruct (memN x l) eqn:E; [exact H|].
  apply NoDup_snoc; [exact H|now apply memN_notIn].
Qed.

Lemma parse_multi_go obs : forall m,
  Forall (fun x => small_id (fst x)) obs -> NoDup (map fst m ++ map fst obs) ->
  foldM (fun m pr => do kv <- parse_pair pr ;; Ok (omap_insert (fst kv) (snd kv) m)) (map pair_text obs) m
  = Ok (m ++ obs).
Proof.
  induction obs as [|[k p] obs IH]; intros m HF HN; cbn [map foldM].
  - now rewrite app_nil_r.
  - inversion HF as [|? ? Hk HF']; subst. rewrite parse_pair_text by exact Hk. cbn [bind fst snd].
    cbn in HN. rewrite omap_insert_fresh.
    + rewrite IH; [now rewrite <- app_assoc|exact HF'|].
      rewrite map_app. cbn. now rewrite <- app_assoc.
    + apply NoDup_remove_2 in HN. intros H; apply HN. apply in_or_app; left; exact H.
Qed.
Lemma parse_multi_text obs :
  Forall (fun x => small_id (fst x)) obs -> NoDup (map fst obs) ->
  parse_multi_dict (join (map pair_text obs) (lit ",")) = Ok obs.
Proof.
  intros HF HN. unfold parse_multi_dict. rewrite split_pairs. apply (parse_multi_go obs []); assumption.
Qed.
Lemma foldM_inv {A S} (f : S -> A -> outcome S) (P : S -> Prop) l s s' :
  (forall s a s', P s -> f s a = Ok s' -> P s') -> P s -> foldM f l s = Ok s' -> P s'.
Proof.
  intros Hf. revert s. induction l as [|a l IH]; intros s Hs H; cbn in H; [inversion H; subst; exact Hs|].
  apply bind_ok in H. destruct H as (s1 & H1 & H2). eapply IH; [|exact H2]. eapply Hf; eassumption.
Qed.
Lemma parse_multi_nodup arg m : parse_multi_dict arg = Ok m -> NoDup (map fst m).
Proof.
  unfold parse_multi_dict. intros H.
  eapply (foldM_inv _ (fun m => NoDup (map fst m))); [| |exact H]; [|constructor].
  intros s a s' Hs Hf. apply bind_ok in Hf. destruct Hf as (kv & _ & Hf). inversion Hf; subst.
  now apply omap_insert_nodup.
Qed.
Lemma parse_multi_text_small obs m :
  parse_multi_dict (join (map pair_text obs) (lit ",")) = Ok m -> Forall (fun x => small_id (fst x)) obs.
Proof.
  unfold parse_multi_dict. rewrite split_pairs. generalize (@nil (N * pauli)) at 1.
  induction obs as [|x obs IH]; intros acc H; [constructor|].
  cbn in H. apply bind_ok in H. destruct H as (s & H1 & H2).
  apply bind_ok in H1. destruct H1 as (kv & H1 & _).
  constructor; [now apply parse_pair_text_inv in H1|]. eapply IH; exact H2.
Qed.

(** Splitting printed fields *)
Lemma split_fields l : l <> [] -> l <> [[]] -> Forall no_space l -> split_on (intercalate " " l) " " = l.
Proof. apply split_on_intercalate. Qed.

Ltac no_space_lit := let H := fresh in intros H; cbn in H; repeat (destruct H as [H|H]; [discriminate H|]); exact H.

Lemma lit_no_space s : existsb (Ascii.eqb " ") (lit s) = false -> no_space (lit s).
Proof.
  intros H Hin. assert (existsb (Ascii.eqb " ") (lit s) = true); [|congruence].
  apply existsb_exists. exists " "%char. split; [exact Hin|reflexivity].
Qed.

(** parse of a text given as fields *)
Lemma parse_fields l : l <> [] -> l <> [[]] -> Forall no_space l ->
  parse_instr (intercalate " " l) = parse_args l.
Proof. intros. unfold parse_instr. now rewrite split_fields. Qed.

Lemma app_nil_end_lit (a : text) : a ++ [] = a. Proof. apply app_nil_r. Qed.

Lemma join_no_space obs : no_space (join (map pair_text obs) (lit ",")).
Proof.
  change (lit ",") with [","%char]. rewrite join_intercalate.
  induction obs as [|x [|y obs] IH]; cbn [map intercalate].
  - intros [].
  - apply pair_no_space.
  - intros H. apply in_app_or in H. destruct H as [H|[H|H]].
    + now apply pair_no_space in H.
    + discriminate.
    + now apply IH in H.
Qed.
Lemma state_no_space s : no_space (print_state s).
Proof. destruct s; no_space_lit. Qed.
Lemma parse_print_state s : parse_init_state (print_state s) = Ok s.
Proof. destruct s; reflexivity. Qed.
Lemma comma_pairs_no_space a b : no_space (pair_text a ++ lit "," ++ pair_text b).
Proof.
  intros H. apply in_app_or in H. destruct H as [H|H]; [now apply pair_no_space in H|].
  apply in_app_or in H. destruct H as [[H|[]]|H]; [discriminate|now apply pair_no_space in H].
Qed.
Lemma split_two_pairs a b : split_on (pair_text a ++ lit "," ++ pair_text b) "," = [pair_text a; pair_text b].
Proof.
  change (pair_text a ++ lit "," ++ pair_text b) with (intercalate "," [pair_text a; pair_text b]).
  apply split_on_intercalate; [discriminate|discriminate|]. repeat constructor; apply pair_no_comma.
Qed.
Lemma print_pnt_pair p : print_pnt p = pair_text (pnt_target p, pnt_op p).
Proof. reflexivity. Qed.

(** Fields of the printed form, for the operations that print as plain fields. *)
Definition op_fields (o : operation) : list text :=
  match o with
  | Measure t p false => [lit "MeasureSinglePatch"; print_N t; pauli_to_string p]
  | MultiMeasure obs false None => [lit "MultiBodyMeasure"; join (map pair_text obs) (lit ",")]
  | Init t s None => [lit "Init"; print_N t; print_state s]
  | Init t s (Some p) => [lit "Init"; print_N t; print_state s; print_pnt p]
  | BellInit s1 s2 l1 l2 None None =>
      [lit "BellPairInit"; print_N s1; print_N s2; print_pnt l1 ++ lit "," ++ print_pnt l2]
  | MagicRequest t n => [lit "RequestMagicState"; print_N t; print_N n]
  | YRequest t n None => [lit "RequestYState"; print_N t; print_N n]
  | SingleOp t SqX _ => [lit "XGate"; print_N t]
  | SingleOp t SqY _ => [lit "YGate"; print_N t]
  | SingleOp t SqZ _ => [lit "ZGate"; print_N t]
  | SingleOp t SqH _ => [lit "HGate"; print_N t]
  | SingleOp t SqS _ => [lit "SGate"; print_N t]
  | Rotate t => [lit "RotateSingleCellPatch"; print_N t]
  | BellCNOT c t s1 s2 _ None None _ =>
      [lit "BellBasedCNOT"; print_N c; print_N t; print_N s1; print_N s2]
  | Reset t => [lit "Reset"; print_N t]
  | _ => []
  end.

Lemma print_fields o : op_fields o <> [] -> print_op o = Ok (intercalate " " (op_fields o)).
Proof.
  destruct o as [ids|t p neg|obs neg loc|t s pl|s1 s2 l1 l2 ls ct|t n|t n loc|t sq dg|t|rg st af|c t s1 s2 rt ct ls ph|t];
  cbn [op_fields]; intros H; try congruence.
  - destruct neg; [congruence|]. reflexivity.
  - destruct neg; [congruence|]. destruct loc; [congruence|]. cbn [print_op].
    rewrite app_nil_r. reflexivity.
  - destruct pl; cbn [print_op]; [reflexivity|]. rewrite app_nil_r. reflexivity.
  - destruct ls; [congruence|]. destruct ct; [congruence|]. cbn [print_op bind]. rewrite app_nil_r. reflexivity.
  - reflexivity.
  - destruct loc; [congruence|]. cbn [print_op]. rewrite app_nil_r. reflexivity.
  - destruct sq; try congruence; reflexivity.
  - reflexivity.
  - destruct ct; [congruence|]. destruct ls; [congruence|]. cbn [print_op bind]. rewrite app_nil_r. reflexivity.
  - reflexivity.
Qed.
Lemma op_fields_no_space o : Forall no_space (op_fields o).
Proof.
  destruct o as [ids|t p neg|obs neg loc|t s pl|s1 s2 l1 l2 ls ct|t n|t n loc|t sq dg|t|rg st af|c t s1 s2 rt ct ls ph|t];
  cbn [op_fields];
  repeat match goal with |- context [match ?x with _ => _ end] => destruct x end;
  repeat apply Forall_cons; try apply Forall_nil;
  rewrite ?print_pnt_pair;
  try (apply lit_no_space; reflexivity); try apply print_N_no_space; try apply pauli_no_space;
  try apply state_no_space; try apply join_no_space; try apply comma_pairs_no_space; try apply pair_no_space.
Qed.
Lemma print_parse_fields i : op_fields (op i) <> [] ->
  forall line, print_instr i = Ok line -> parse_instr line = parse_args (op_fields (op i)).
Proof.
  intros H line Hl. unfold print_instr in Hl. rewrite print_fields in Hl by exact H. inversion Hl; subst.
  apply parse_fields; [exact H| |apply op_fields_no_space].
  destruct (op i); cbn in *; repeat match goal with |- context [match ?x with _ => _ end] => destruct x end;
  cbn; congruence.
Qed.

Ltac kw := match goal with |- context [is_kw ?a ?b ?c] =>
             let v := eval vm_compute in (is_kw a b c) in change (is_kw a b c) with v
           | |- context [text_eqb (lit ?a) (lit ?b)] =>
             let v := eval vm_compute in (text_eqb (lit a) (lit b)) in
             change (text_eqb (lit a) (lit b)) with v end.
Ltac kws := repeat (kw; cbv iota).
Ltac kwh H := match type of H with context [is_kw ?a ?b ?c] =>
             let v := eval vm_compute in (is_kw a b c) in change (is_kw a b c) with v in H
           | context [text_eqb (lit ?a) (lit ?b)] =>
             let v := eval vm_compute in (text_eqb (lit a) (lit b)) in
             change (text_eqb (lit a) (lit b)) with v in H end.
Ltac kwsh H := repeat (kwh H; cbv iota in H).

Theorem text_form_round_trips i : has_text_form i -> round_trips i.
Proof.
  assert (forall i, op_fields (op i) <> [] -> parse_args (op_fields (op i)) = Ok i -> round_trips i) as K.
  { intros j Hne Hp. exists (intercalate " " (op_fields (op j))). split.
    - unfold print_instr. now apply print_fields.
    - erewrite (print_parse_fields j Hne); [exact Hp|]. unfold print_instr. now apply print_fields. }
  intros H. inversion H; subst; clear H;
  try (apply K; cbn [op op_fields]; [discriminate|]; unfold parse_args; cbn [next_arg bind];
       kws; cbn [next_arg bind]).
  - exists (lit "DeclareLogicalQubitPatches "). split; reflexivity.
  - rewrite parse_patch_id_print0 by assumption. cbn [bind]. rewrite pauli_from_to. reflexivity.
  - rewrite parse_multi_text by assumption. reflexivity.
  - rewrite parse_patch_id_print0 by assumption. cbn [bind]. rewrite parse_print_state. reflexivity.
  - rewrite parse_patch_id_print0 by assumption. cbn [bind]. rewrite parse_print_state. cbn [bind].
    rewrite print_pnt_pair, split_pair. cbn [at_ nth_error bind fst snd pnt_target pnt_op].
    rewrite parse_patch_id_print0 by assumption. cbn [bind]. rewrite pauli_from_to. reflexivity.
  - repeat (rewrite parse_patch_id_print0 by assumption; cbn [bind next_arg]).
    rewrite !print_pnt_pair, split_two_pairs. cbn [parse_locs]. rewrite !split_pair.
    cbn [Nat.ltb Nat.leb bind fst snd].
    repeat (first [rewrite parse_patch_id_print0 by assumption | rewrite pauli_from_to]; cbn [bind next_arg]).
    cbn.
    destruct l1, l2; reflexivity.
  - rewrite parse_patch_id_print0 by assumption. cbn [bind].
    rewrite parse_patch_id_print0 by assumption. reflexivity.
  - rewrite parse_patch_id_print0 by assumption. cbn [bind].
    rewrite parse_patch_id_print0 by assumption. reflexivity.
  - rewrite parse_patch_id_print0 by assumption. reflexivity.
  - rewrite parse_patch_id_print0 by assumption. reflexivity.
  - rewrite parse_patch_id_print0 by assumption. reflexivity.
  - repeat (rewrite parse_patch_id_print0 by assumption; cbn [bind next_arg]). reflexivity.
Qed.

(** ** What the parser can produce *)
Definition parser_shape (i : instr) : Prop :=
  wait i = SIZE_MAX /\
  clients i = (match op i with Init t _ _ => [t] | _ => [] end) /\
  match op i with
  | Declare _ => True
  | Measure _ _ neg => neg = false
  | MultiMeasure obs neg loc => neg = false /\ loc = None /\ NoDup (map fst obs)
  | Init _ _ _ => True
  | BellInit _ _ _ _ ls ct => ls = None /\ ct = None
  | MagicRequest _ _ => True
  | YRequest _ _ loc => loc = None
  | SingleOp _ _ dg => dg = false
  | Rotate _ => True
  | Busy _ _ _ => False
  | BellCNOT _ _ _ _ rt ct ls ph => rt = None /\ ct = None /\ ls = None /\ ph = None
  | Reset _ => False
  end.

Ltac inv_bind H :=
  match type of H with
  | bind _ _ = Ok _ => let x := fresh "x" in let Hx := fresh "Hx" in
      apply bind_ok in H; destruct H as (x & Hx & H); try (destruct x as [? ?])
  end.
Lemma parse_args_shape l i : parse_args l = Ok i -> parser_shape i.
Proof.
  unfold parse_args. intros H. inv_bind H.
  repeat match type of H with
  | (if ?c then _ else _) = Ok _ => destruct c
  end; try discriminate;
  repeat inv_bind H; try discriminate;
  try (match type of H with match ?x with _ => _ end = Ok _ => destruct x end; repeat inv_bind H);
  inversion H; subst; unfold parser_shape; cbn; try (repeat split; reflexivity).
  repeat split. eapply parse_multi_nodup; eassumption.
Qed.

(** Printed declarations do not come back unless empty. *)
Lemma single_char_id c m : parse_patch_id [c] = Ok m -> (m < 10)%N /\ N_of_ascii c = (48 + m)%N.
Proof.
  intros H. destruct c as [b0 b1 b2 b3 b4 b5 b6 b7].
  destruct b0, b1, b2, b3, b4, b5, b6, b7; vm_compute in H; try discriminate H; inversion H; vm_compute; split; reflexivity.
Qed.
Lemma foldM_oset_head (f : text -> outcome N) l acc r : 
  foldM (fun l e => do x <- f e ;; Ok (oset_insert x l)) l acc = Ok r ->
  exists t, r = acc ++ t.
Proof.
  revert acc. induction l as [|e l IH]; intros acc H; cbn in H.
  - inversion H; subst. exists []. now rewrite app_nil_r.
  - inv_bind H. inv_bind Hx. inversion Hx; subst. apply IH in H. destruct H as (t & ->).
    unfold oset_insert. destruct (memN x0 acc); [exists t; reflexivity|].
    exists (x0 :: t). now rewrite <- app_assoc.
Qed.
Lemma join_go_app acc sep l : join_go acc sep l = acc ++ join_go [] sep l.
Proof.
  revert acc. induction l as [|v l IH]; intros acc; cbn; [now rewrite app_nil_r|].
  rewrite IH, (IH (sep ++ v)). now rewrite <- !app_assoc.
Qed.
Lemma declare_not_roundtrip v l line :
  print_instr (mkI (Declare (v :: l)) SIZE_MAX []) = Ok line ->
  parse_instr line <> Ok (mkI (Declare (v :: l)) SIZE_MAX []).
Proof.
  intros Hp Hr. unfold print_instr in Hp. cbn [op print_op join_ids] in Hp. inversion Hp as [Hl]; clear Hp.
  set (c := ascii_of_N (v mod 256)) in *.
  assert (exists rest, line = intercalate " " [lit "DeclareLogicalQubitPatches"; c :: rest] /\
            (rest = [] \/ exists q, rest = ","%char :: q) /\ ~ In " "%char rest) as (rest & Hline & Hrest & Hns).
  { exists (join_go [] (lit ",") (map print_N l)). split; [|split].
    - rewrite <- Hl. cbn [intercalate]. rewrite (join_go_app [c]). reflexivity.
    - destruct l as [|w l]; [left; reflexivity|right].
      cbn [map join_go app]. rewrite join_go_app. eexists; reflexivity.
    - change (lit ",") with [","%char]. rewrite join_go_spec. cbn. intros Hin.
      apply in_concat in Hin. destruct Hin as (x & Hx & Hin). apply in_map_iff in Hx.
      destruct Hx as (y & <- & Hy). destruct Hin as [Hin|Hin]; [discriminate|].
      apply in_map_iff in Hy. destruct Hy as (z & <- & _). now apply print_N_no_space in Hin. }
  rewrite Hline in Hr; clear Hline.
  destruct (ascii_dec c " ") as [Hc|Hc].
  - (* blank: the argument is empty or missing the first id *)
    rewrite Hc in Hr. unfold parse_instr in Hr.
    assert (exists tl, split_on (intercalate " " [lit "DeclareLogicalQubitPatches"; " "%char :: rest]) " "
            = lit "DeclareLogicalQubitPatches" :: [] :: tl) as (tl & Es).
    { unfold split_on. cbn [intercalate]. rewrite split_go_skip by (apply lit_no_space; reflexivity).
      cbn [split_go]. rewrite Ascii.eqb_refl. rewrite app_nil_r, rev_involutive. eexists. reflexivity. }
    rewrite Es in Hr. unfold parse_args in Hr. cbn [next_arg bind] in Hr. kwsh Hr. cbn in Hr.
    unfold instr_of in Hr. inversion Hr.
  - rewrite parse_fields in Hr; [|discriminate|discriminate|].
    2:{ constructor; [apply lit_no_space; reflexivity|constructor; [|constructor]].
        intros [Hin|Hin]; [congruence|contradiction]. }
    unfold parse_args in Hr. cbn [next_arg bind] in Hr. kwsh Hr. cbn [next_arg bind] in Hr.
    inv_bind Hr. inversion Hr; subst. clear Hr. unfold parse_id_list in Hx.
    destruct (ascii_dec c ",") as [Hc2|Hc2].
    + rewrite Hc2 in Hx. unfold split_on in Hx. cbn [split_go] in Hx. rewrite Ascii.eqb_refl in Hx.
      cbn in Hx. discriminate.
    + assert (exists tl, split_on (c :: rest) "," = [c] :: tl) as (tl & Es).
      { unfold split_on. cbn [split_go]. destruct (Ascii.eqb_spec c ","); [congruence|].
        destruct Hrest as [->|(q & ->)]; [exists []; reflexivity|]. cbn [split_go].
        rewrite Ascii.eqb_refl. eexists. reflexivity. }
      rewrite Es in Hx. cbn [foldM] in Hx. inv_bind Hx. inv_bind Hx0.
      inversion Hx0; subst. apply foldM_oset_head in Hx. destruct Hx as (t & Ht).
      cbn in Ht. injection Ht as Hv _. apply single_char_id in Hx1. destruct Hx1 as [H1 H2].
      unfold c in H2. rewrite N_ascii_embedding in H2 by (apply N.mod_lt; lia).
      rewrite <- Hv in *. rewrite N.mod_small in H2 by lia. lia.
Qed.

Theorem round_trips_text_form i : round_trips i -> has_text_form i.
Proof.
  intros (line & Hp & Hr). pose proof (parse_args_shape _ _ Hr) as Hs.
  destruct i as [o w cl]. unfold parser_shape in Hs. cbn [op wait clients] in Hs.
  destruct Hs as (-> & -> & Hs).
  assert (op_fields o <> [] -> parse_args (op_fields o) = Ok (mkI o SIZE_MAX
             match o with Init t _ _ => [t] | _ => [] end)) as K.
  { intros Hne. rewrite <- Hr. symmetry. apply print_parse_fields in Hp; [exact Hp|exact Hne]. }
  destruct o as [ids|t p neg|obs neg loc|t s pl|s1 s2 l1 l2 ls ct|t n|t n loc|t sq dg|t|rg st af|c t s1 s2 rt ct ls ph|t];
  cbn [op_fields] in K.
  - destruct ids as [|v l]; [constructor|]. exfalso. eapply declare_not_roundtrip; eassumption.
  - subst neg. specialize (K ltac:(discriminate)). unfold parse_args in K. cbn [next_arg bind] in K. kwsh K.
    cbn [next_arg bind] in K. inv_bind K. apply parse_patch_id_print_inv in Hx. now constructor.
  - destruct Hs as (-> & -> & Hnd). specialize (K ltac:(discriminate)). unfold parse_args in K.
    cbn [next_arg bind] in K. kwsh K. cbn [next_arg bind] in K. inv_bind K.
    apply parse_multi_text_small in Hx. now constructor.
  - destruct pl as [[n p]|].
    + specialize (K ltac:(discriminate)). unfold parse_args in K. cbn [next_arg bind] in K. kwsh K.
      cbn [next_arg bind] in K. inv_bind K. apply parse_patch_id_print_inv in Hx.
      rewrite parse_print_state in K. cbn [bind] in K.
      rewrite print_pnt_pair, split_pair in K. cbn [at_ nth_error bind fst snd pnt_target pnt_op] in K.
      inv_bind K. apply parse_patch_id_print_inv in Hx0. now constructor.
    + specialize (K ltac:(discriminate)). unfold parse_args in K. cbn [next_arg bind] in K. kwsh K.
      cbn [next_arg bind] in K. inv_bind K. apply parse_patch_id_print_inv in Hx. now constructor.
  - destruct Hs as (-> & ->). specialize (K ltac:(discriminate)). unfold parse_args in K.
    cbn [next_arg bind] in K. kwsh K. cbn [next_arg bind] in K. inv_bind K. inv_bind K.
    apply parse_patch_id_print_inv in Hx, Hx0.
    rewrite !print_pnt_pair, split_two_pairs in K. cbn [parse_locs] in K. rewrite !split_pair in K.
    cbn [Nat.ltb Nat.leb fst snd] in K. inv_bind K. clear K.
    inv_bind Hx1. inv_bind Hx1. inv_bind Hx1. inv_bind Hx4.
    apply parse_patch_id_print_inv in Hx2, Hx5. constructor; assumption.
  - specialize (K ltac:(discriminate)). unfold parse_args in K. cbn [next_arg bind] in K. kwsh K.
    cbn [next_arg bind] in K. inv_bind K. inv_bind K. apply parse_patch_id_print_inv in Hx, Hx0. now constructor.
  - subst loc. specialize (K ltac:(discriminate)). unfold parse_args in K. cbn [next_arg bind] in K. kwsh K.
    cbn [next_arg bind] in K. inv_bind K. inv_bind K. apply parse_patch_id_print_inv in Hx, Hx0. now constructor.
  - subst dg. destruct sq; try (specialize (K ltac:(discriminate)); unfold parse_args in K;
      cbn [next_arg bind] in K; kwsh K; cbn [next_arg bind] in K; try discriminate K;
      inv_bind K; apply parse_patch_id_print_inv in Hx; now constructor).
  - specialize (K ltac:(discriminate)). unfold parse_args in K. cbn [next_arg bind] in K. kwsh K.
    cbn [next_arg bind] in K. inv_bind K. apply parse_patch_id_print_inv in Hx. now constructor.
  - contradiction.
  - destruct Hs as (-> & -> & -> & ->). specialize (K ltac:(discriminate)). unfold parse_args in K.
    cbn [next_arg bind] in K. kwsh K. cbn [next_arg bind] in K. do 4 inv_bind K.
    apply parse_patch_id_print_inv in Hx, Hx0, Hx1, Hx2. now constructor.
  - contradiction.
Qed.

(** ** C05: outcomes of the parser *)
Definition defined {A} (x : outcome A) : Prop := (exists a, x = Ok a) \/ (exists e, x = Throw e).
Lemma defined_ok {A} (a : A) : defined (Ok a). Proof. left; eauto. Qed.
Lemma defined_throw {A} e : @defined A (Throw e). Proof. right; eauto. Qed.
Lemma defined_bind {A B} (x : outcome A) (f : A -> outcome B) :
  defined x -> (forall a, x = Ok a -> defined (f a)) -> defined (bind x f).
Proof. intros [[a ->]|[e ->]] H; cbn; [apply H; reflexivity|apply defined_throw]. Qed.
Lemma defined_foldM {A S} (f : S -> A -> outcome S) l : (forall s a, defined (f s a)) ->
  forall s, defined (foldM f l s).
Proof.
  intros Hf. induction l as [|a l IH]; intros s; cbn; [apply defined_ok|].
  apply defined_bind; [apply Hf|intros; apply IH].
Qed.
Lemma defined_id s : defined (parse_patch_id s).
Proof. unfold parse_patch_id. destruct (from_chars_int s); [apply defined_ok|apply defined_throw|apply defined_throw]. Qed.
Lemma defined_pauli s : defined (pauli_from_string s).
Proof. destruct (pauli_from_string_total s) as [[p ->]| ->]; [apply defined_ok|apply defined_throw]. Qed.
Lemma defined_state s : defined (parse_init_state s).
Proof.
  unfold parse_init_state.
  repeat match goal with |- context [if ?c then _ else _] => destruct c end;
  (apply defined_ok || apply defined_throw).
Qed.
Lemma defined_next args : defined (next_arg args).
Proof. destruct args; [apply defined_throw|apply defined_ok]. Qed.
Lemma defined_pair s : defined (parse_pair s).
Proof.
  unfold parse_pair. destruct (split_on s ":") as [|a [|b [|? ?]]]; try apply defined_throw.
  apply defined_bind; [apply defined_id|intros]. apply defined_bind; [apply defined_pauli|intros; apply defined_ok].
Qed.
Lemma defined_multi s : defined (parse_multi_dict s).
Proof.
  apply defined_foldM. intros m pr. apply defined_bind; [apply defined_pair|intros; apply defined_ok].
Qed.
Lemma defined_idlist s : defined (parse_id_list s).
Proof.
  apply defined_foldM. intros m pr. apply defined_bind; [apply defined_id|intros; apply defined_ok].
Qed.
Lemma defined_at {A} (l : list A) i : defined (at_ l i).
Proof. unfold at_. destruct (nth_error l i); [apply defined_ok|apply defined_throw]. Qed.
Lemma defined_locs l : forall n, defined (parse_locs n l).
Proof.
  induction l as [|pr l IH]; intros n; cbn [parse_locs]; [apply defined_ok|].
  destruct (split_on pr ":") as [|a [|b [|? ?]]]; try apply defined_throw.
  destruct (1 <? n)%nat; [apply defined_throw|].
  apply defined_bind; [apply defined_id|intros]. apply defined_bind; [apply defined_pauli|intros].
  apply defined_bind; [apply IH|intros; apply defined_ok].
Qed.
Lemma locs_length l : forall n r, parse_locs n l = Ok r -> length r = length l.
Proof.
  induction l as [|pr l IH]; intros n r H; cbn [parse_locs] in H; [inversion H; reflexivity|].
  destruct (split_on pr ":") as [|a [|b [|? ?]]]; try discriminate.
  destruct (1 <? n)%nat; [discriminate|].
  do 3 (apply bind_ok in H; destruct H as (? & ? & H)). inversion H; subst. cbn.
  f_equal. eapply IH; eassumption.
Qed.

Ltac dstep :=
  match goal with
  | |- defined (Ok _) => apply defined_ok
  | |- defined (Throw _) => apply defined_throw
  | |- defined (bind (next_arg _) _) => apply defined_bind; [apply defined_next|intros [? ?] ?]
  | |- defined (bind (parse_patch_id _) _) => apply defined_bind; [apply defined_id|intros ? ?]
  | |- defined (bind (pauli_from_string _) _) => apply defined_bind; [apply defined_pauli|intros ? ?]
  | |- defined (bind (parse_init_state _) _) => apply defined_bind; [apply defined_state|intros ? ?]
  | |- defined (bind (parse_multi_dict _) _) => apply defined_bind; [apply defined_multi|intros ? ?]
  | |- defined (bind (parse_id_list _) _) => apply defined_bind; [apply defined_idlist|intros ? ?]
  | |- defined (bind (at_ _ _) _) => apply defined_bind; [apply defined_at|intros ? ?]
  | |- defined (bind (parse_locs _ _) _) => apply defined_bind; [apply defined_locs|intros ? ?]
  | |- defined (if ?c then _ else _) => destruct c
  | |- defined (match ?l with [] => _ | _ => _ end) => destruct l
  end.

(** The only way to undefined behaviour: a Bell pair with fewer than two locations. *)
Theorem parse_outcome line :
  defined (parse_instr line) \/
  (parse_instr line = UB UBIndex /\
   exists kw a b c rest, split_on line " " = kw :: a :: b :: c :: rest /\
     (kw = lit "BellPairInit" \/ kw = lit "8") /\ ~ In ","%char c).
Proof.
  unfold parse_instr.
  destruct (split_on line " ") as [|kw args] eqn:Esp.
  { left. apply defined_throw. }
  unfold parse_args. cbn [next_arg bind].
  destruct (is_kw kw "BellPairInit" "8") eqn:Ek.
  2:{ left. repeat dstep. }
  assert (kw = lit "BellPairInit" \/ kw = lit "8") as Hkw.
  { unfold is_kw in Ek. apply orb_true_iff in Ek. rewrite !text_eqb_eq in Ek. exact Ek. }
  assert (text_eqb kw (lit "DeclareLogicalQubitPatches") = false /\
          is_kw kw "Init" "0" = false /\ is_kw kw "MeasureSinglePatch" "1" = false /\
          is_kw kw "MultiBodyMeasure" "2" = false /\ is_kw kw "RequestMagicState" "3" = false /\
          is_kw kw "LogicalPauli" "4" = false /\ is_kw kw "HGate" "5" = false /\
          is_kw kw "SGate" "6" = false /\ is_kw kw "RotateSingleCellPatch" "7" = false)
    as (-> & -> & -> & -> & -> & -> & -> & -> & ->).
  { destruct Hkw as [-> | ->]; repeat split; reflexivity. }
  destruct args as [|a args]; [left; apply defined_throw|]. cbn [next_arg bind].
  destruct (defined_id a) as [[s1 E1]|[e E1]]; rewrite E1; cbn [bind]; [|left; apply defined_throw].
  destruct args as [|b args]; [left; apply defined_throw|]. cbn [next_arg bind].
  destruct (defined_id b) as [[s2 E2]|[e E2]]; rewrite E2; cbn [bind]; [|left; apply defined_throw].
  destruct args as [|c args]; [left; apply defined_throw|]. cbn [next_arg bind].
  destruct (defined_locs (split_on c ",") 0) as [[locs E3]|[e E3]]; rewrite E3; cbn [bind]; [|left; apply defined_throw].
  apply locs_length in E3.
  destruct (in_dec ascii_dec ","%char c) as [Hin|Hnin].
  - left. rewrite split_on_length in E3 by (intros ->; destruct Hin).
    unfold count_char in E3. apply (count_occ_In ascii_dec) in Hin.
    destruct locs as [|l1 [|l2 locs]]; cbn in E3; try lia. cbn. apply defined_ok.
  - destruct locs as [|l1 [|l2 locs]]; cbn [idx nth_error bind].
    + right. split; [reflexivity|]. do 5 eexists. split; [reflexivity|]. split; assumption.
    + right. split; [reflexivity|]. do 5 eexists. split; [reflexivity|]. split; assumption.
    + left. apply defined_ok.
Qed.

(** Every printed Bell pair with its second location removed is undefined. *)
Lemma bell_one_location_ub s1 s2 n p : small_id s1 -> small_id s2 -> small_id n ->
  parse_instr (lit "BellPairInit " ++ print_N s1 ++ lit " " ++ print_N s2 ++ lit " " ++
               print_N n ++ lit ":" ++ pauli_to_string p) = UB UBIndex.
Proof.
  intros H1 H2 H3.
  change (lit "BellPairInit " ++ print_N s1 ++ lit " " ++ print_N s2 ++ lit " " ++
               print_N n ++ lit ":" ++ pauli_to_string p)
    with (intercalate " " [lit "BellPairInit"; print_N s1; print_N s2; pair_text (n, p)]).
  rewrite parse_fields; [|discriminate|discriminate|].
  2:{ repeat apply Forall_cons; try apply Forall_nil;
      [apply lit_no_space; reflexivity|apply print_N_no_space|apply print_N_no_space|apply pair_no_space]. }
  unfold parse_args. cbn [next_arg bind]. kws. cbn [next_arg bind].
  repeat (rewrite parse_patch_id_print0 by assumption; cbn [bind next_arg]).
  replace (split_on (pair_text (n, p)) ",") with [pair_text (n, p)].
  - cbn [parse_locs]. rewrite split_pair. cbn [Nat.ltb Nat.leb fst snd].
    rewrite parse_patch_id_print0 by assumption. cbn [bind]. rewrite pauli_from_to. reflexivity.
  - symmetry. apply (split_on_intercalate "," [pair_text (n, p)]); [discriminate| |].
    + intros H. inversion H as [H']. now apply pair_nonempty in H'.
    + repeat constructor. apply pair_no_comma.
Qed.

(** ** C06 *)
Lemma split_on_word w rest : no_space w -> (rest = [] -> w <> []) ->
  (rest = [] \/ exists r, rest = " "%char :: r) ->
  split_on (w ++ rest) " " =
  w :: match rest with [] => [] | _ :: r => split_go " " true [] r end.
Proof.
  intros Hw Hne Hr. unfold split_on. rewrite split_go_skip by exact Hw. rewrite app_nil_r.
  destruct Hr as [->|(r & ->)]; cbn [split_go].
  - destruct (rev w) as [|x y] eqn:E.
    + exfalso. apply Hne; [reflexivity|]. rewrite <- (rev_involutive w), E. reflexivity.
    + rewrite <- E. now rewrite rev_involutive.
  - rewrite Ascii.eqb_refl, rev_involutive. reflexivity.
Qed.
Lemma opcode_same name code rest : In (name, code) opcode_table ->
  (rest = [] \/ exists r, rest = " "%char :: r) ->
  parse_instr (lit name ++ rest) = parse_instr (lit code ++ rest).
Proof.
  intros Hin Hr. unfold parse_instr.
  assert (no_space (lit name) /\ lit name <> [] /\ no_space (lit code) /\ lit code <> []) as (N1 & N2 & N3 & N4).
  { cbn [opcode_table] in Hin.
    repeat (destruct Hin as [Hin|Hin]; [inversion Hin; subst; repeat split;
      first [apply lit_no_space; reflexivity | discriminate]|]). destruct Hin. }
  rewrite !split_on_word by auto.
  generalize (match rest with [] => [] | _ :: r => split_go " " true [] r end) as args. intros args.
  unfold parse_args. cbn [next_arg bind].
  cbn [opcode_table] in Hin.
  repeat (destruct Hin as [Hin|Hin]; [inversion Hin; subst; kws; reflexivity|]). destruct Hin.
Qed.

(** ** C18 *)
Lemma fold_oset_In l : forall acc y, In y (fold_left (fun l x => oset_insert x l) l acc) <-> In y acc \/ In y l.
Proof.
  induction l as [|x l IH]; intros acc y; cbn; [tauto|]. rewrite IH, oset_insert_In. intuition congruence.
Qed.
Lemma fold_busy_In l : forall acc y,
  In y (fold_left (fun acc p => match p_id (sp_patch p) with Some x => oset_insert x acc | None => acc end) l acc)
  <-> In y acc \/ exists s, In s l /\ p_id (sp_patch s) = Some y.
Proof.
  induction l as [|s l IH]; intros acc y; cbn; [firstorder|]. rewrite IH.
  destruct (p_id (sp_patch s)) as [x|] eqn:E.
  - rewrite oset_insert_In. split.
    + intros [[->|H]|(s' & H & H')]; eauto.
    + intros [H|(s' & [<-|H] & H')]; eauto. left; left. congruence.
  - split.
    + intros [H|(s' & H & H')]; eauto.
    + intros [H|(s' & [<-|H] & H')]; eauto. congruence.
Qed.
Lemma operating_In i y : In y (operating_patches i) <->
  In y (clients i) \/ (names (op i) y /\ 
     match op i with
     | Init t _ _ => y = t | MagicRequest t _ => y = t | YRequest t _ _ => y = t | _ => True end).
Proof.
  unfold operating_patches, names. destruct (op i);
  rewrite ?oset_insert_In, ?fold_oset_In, ?fold_busy_In; try tauto; try intuition congruence.
Qed.
Lemma can_commute_iff a b : can_commute a b = true <->
  forall p, ~ (In p (operating_patches a) /\ In p (operating_patches b)).
Proof.
  unfold can_commute, set_intersection. destruct (filter _ _) as [|x l] eqn:E.
  - split; [intros _ p [H1 H2]|reflexivity].
    assert (In p (filter (fun x => memN x (operating_patches b)) (operating_patches a))) as H.
    { apply filter_In. split; [exact H1|now apply memN_In]. }
    rewrite E in H. destruct H.
  - split; [discriminate|]. intros H. exfalso. apply (H x).
    assert (In x (filter (fun x => memN x (operating_patches b)) (operating_patches a))) as Hx by (rewrite E; left; reflexivity).
    apply filter_In in Hx. destruct Hx as [H1 H2]. apply memN_In in H2. tauto.
Qed.
Lemma can_commute_sym a b : can_commute a b = can_commute b a.
Proof.
  destruct (can_commute a b) eqn:E1, (can_commute b a) eqn:E2; try reflexivity.
  - rewrite can_commute_iff in E1. assert (can_commute b a = true); [|congruence].
    apply can_commute_iff. intros p [H1 H2]. now apply (E1 p).
  - rewrite can_commute_iff in E2. assert (can_commute a b = true); [|congruence].
    apply can_commute_iff. intros p [H1 H2]. now apply (E2 p).
Qed.
Definition place_declared (i : instr) : Prop := forall p, proximity_only (op i) p -> In p (clients i).
Lemma uses_operating i p : uses i p -> In p (operating_patches i) \/ (proximity_only (op i) p /\ ~ In p (operating_patches i)).
Proof.
  intros H. destruct (in_dec N.eq_dec p (operating_patches i)) as [Hin|Hn]; [left; exact Hin|right].
  split; [|exact Hn]. rewrite operating_In in Hn. unfold uses in H. destruct H as [H|H]; [|tauto].
  unfold names, proximity_only in *. destruct (op i); try (exfalso; apply Hn; right; split; [exact H|exact I]);
  try (exfalso; apply Hn; right; split; exact H).
  - destruct place; [|exfalso; apply Hn; right; split; [|]; intuition].
    destruct H as [H|H]; [exfalso; apply Hn; right; split; auto|exact H].
  - destruct H as [H|H]; [exfalso; apply Hn; right; split; auto|exact H].
  - destruct H as [H|H]; [exfalso; apply Hn; right; split; auto|exact H].
Qed.
Lemma commute_no_shared a b : can_commute a b = true ->
  (forall p, proximity_only (op a) p -> In p (clients a)) ->
  (forall p, proximity_only (op b) p -> In p (clients b)) ->
  forall p, ~ (uses a p /\ uses b p).
Proof.
  intros Hc Ha Hb p [H1 H2]. rewrite can_commute_iff in Hc. apply (Hc p). split.
  - destruct (uses_operating a p H1) as [H|[H Hn]]; [exact H|].
    apply operating_In. left. now apply Ha.
  - destruct (uses_operating b p H2) as [H|[H Hn]]; [exact H|].
    apply operating_In. left. now apply Hb.
Qed.
Lemma commute_complete a b : (forall p, ~ (uses a p /\ uses b p)) -> can_commute a b = true.
Proof.
  intros H. apply can_commute_iff. intros p [H1 H2]. apply (H p).
  rewrite operating_In in H1, H2. unfold uses. tauto.
Qed.

(** ** C46 geometry *)
Open Scope Z_scope.
Lemma cell_eqb_eq a b : cell_eqb a b = true <-> a = b.
Proof.
  destruct a as [r c], b as [r' c']. unfold cell_eqb. cbn. rewrite andb_true_iff, !Z.eqb_eq.
  split; [intros [-> ->]; reflexivity|intros H; inversion H; auto].
Qed.
Lemma cell_eqb_refl a : cell_eqb a a = true. Proof. now apply cell_eqb_eq. Qed.
Lemma cell_eqb_spec a b : reflect (a = b) (cell_eqb a b).
Proof. apply iff_reflect. symmetry. apply cell_eqb_eq. Qed.
Definition cell_eq_dec (a b : cell) : {a = b} + {a <> b}.
Proof. destruct (cell_eqb a b) eqn:E; [left; now apply cell_eqb_eq|right; intros ->; rewrite cell_eqb_refl in E; discriminate]. Defined.

Lemma adjacent_step a b : adjacent a b <-> exists d, b = step a d.
Proof.
  destruct a as [r c], b as [r' c']. unfold adjacent; cbn. split.
  - intros H.
    assert ((r' = r - 1 /\ c' = c) \/ (r' = r + 1 /\ c' = c) \/ (r' = r /\ c' = c - 1) \/ (r' = r /\ c' = c + 1)) as
      [[-> ->]|[[-> ->]|[[-> ->]|[-> ->]]]] by lia;
    [exists DTop|exists DBottom|exists DLeft|exists DRight]; reflexivity.
  - intros ([]& H); cbn in H; inversion H; lia.
Qed.
Lemma adjacent_sym a b : adjacent a b <-> adjacent b a.
Proof. unfold adjacent. split; intros; lia. Qed.
Lemma get_neigbours_adj c n : In n (get_neigbours c) <-> adjacent c n.
Proof.
  rewrite adjacent_step. unfold get_neigbours. cbn. split.
  - intros [<-|[<-|[<-|[<-|[]]]]]; [exists DTop|exists DBottom|exists DLeft|exists DRight]; reflexivity.
  - intros ([]& ->); cbn; tauto.
Qed.
Lemma neighbours_in_iff c o f n : in_box o f c ->
  (In n (get_neigbours_in c o f) <-> adjacent c n /\ in_box o f n).
Proof.
  intros Hc. unfold get_neigbours_in. rewrite adjacent_step. unfold in_box in *.
  rewrite !in_app_iff. split.
  - intros [H|[H|[H|H]]].
    + destruct (row c >? row o) eqn:E; [|destruct H]. destruct H as [<-|[]]. split; [exists DTop; reflexivity|cbn; lia].
    + destruct (row c <? row f) eqn:E; [|destruct H]. destruct H as [<-|[]]. split; [exists DBottom; reflexivity|cbn; lia].
    + destruct (col c >? col o) eqn:E; [|destruct H]. destruct H as [<-|[]]. split; [exists DLeft; reflexivity|cbn; lia].
    + destruct (col c <? col f) eqn:E; [|destruct H]. destruct H as [<-|[]]. split; [exists DRight; reflexivity|cbn; lia].
  - intros [([]& ->) Hb]; cbn in Hb.
    + left. destruct (row c >? row o) eqn:E; [left; reflexivity|lia].
    + right; left. destruct (row c <? row f) eqn:E; [left; reflexivity|lia].
    + right; right; left. destruct (col c >? col o) eqn:E; [left; reflexivity|lia].
    + right; right; right. destruct (col c <? col f) eqn:E; [left; reflexivity|lia].
Qed.
Lemma neighbours_in_nodup c o f : NoDup (get_neigbours_in c o f).
Proof.
  unfold get_neigbours_in.
  destruct (row c >? row o), (row c <? row f), (col c >? col o), (col c <? col f); cbn;
  repeat constructor; cbn; intros H;
  repeat (destruct H as [H|H]; [injection H; intros; lia|]); exact H.
Qed.
Lemma directional_iff c o f d n : in_box o f c ->
  (get_directional_neighbor c o f d = Some n <-> n = step c d /\ in_box o f n).
Proof.
  intros Hc. unfold in_box in *. destruct d; cbn [get_directional_neighbor step].
  - destruct (row c >? row o) eqn:E; split; intros H; try discriminate;
    [inversion H; subst; cbn; split; [reflexivity|lia]|destruct H; congruence|destruct H as [-> H]; cbn in H; lia].
  - destruct (row c <? row f) eqn:E; split; intros H; try discriminate;
    [inversion H; subst; cbn; split; [reflexivity|lia]|destruct H; congruence|destruct H as [-> H]; cbn in H; lia].
  - destruct (col c >? col o) eqn:E; split; intros H; try discriminate;
    [inversion H; subst; cbn; split; [reflexivity|lia]|destruct H; congruence|destruct H as [-> H]; cbn in H; lia].
  - destruct (col c <? col f) eqn:E; split; intros H; try discriminate;
    [inversion H; subst; cbn; split; [reflexivity|lia]|destruct H; congruence|destruct H as [-> H]; cbn in H; lia].
Qed.
Lemma side_towards_iff c n d : side_towards c n = Some d <-> n = step c d.
Proof.
  unfold side_towards. 
  destruct (cell_eqb_spec n (mkCell (row c - 1) (col c))) as [->|H1].
  { split; [intros H; inversion H; reflexivity|destruct d; cbn; intros H; inversion H; try reflexivity; lia]. }
  destruct (cell_eqb_spec n (mkCell (row c + 1) (col c))) as [->|H2].
  { split; [intros H; inversion H; reflexivity|destruct d; cbn; intros H; inversion H; try reflexivity; lia]. }
  destruct (cell_eqb_spec n (mkCell (row c) (col c - 1))) as [->|H3].
  { split; [intros H; inversion H; reflexivity|destruct d; cbn; intros H; inversion H; try reflexivity; lia]. }
  destruct (cell_eqb_spec n (mkCell (row c) (col c + 1))) as [->|H4].
  { split; [intros H; inversion H; reflexivity|destruct d; cbn; intros H; inversion H; try reflexivity; lia]. }
  split; [discriminate|]. destruct d; cbn; congruence.
Qed.
Lemma step_back c d : step (step c d) (dir_not d) = c.
Proof. destruct c, d; unfold step; cbn; f_equal; lia. Qed.
Lemma side_towards_opposite c n d : side_towards c n = Some d -> side_towards n c = Some (dir_not d).
Proof. rewrite !side_towards_iff. intros ->. symmetry. apply step_back. Qed.
Lemma side_towards_none c n : side_towards c n = None <-> ~ adjacent c n.
Proof.
  rewrite adjacent_step. split.
  - intros H (d & E). apply side_towards_iff in E. congruence.
  - intros H. destruct (side_towards c n) as [d|] eqn:E; [|reflexivity].
    exfalso. apply H. exists d. now apply side_towards_iff.
Qed.
Lemma side_set_side b d x d' : side (set_side b d x) d' = if dir_eqb d d' then x else side b d'.
Proof. destruct d, d'; reflexivity. Qed.
Definition clockwise (d : dir) : dir :=
  match d with DTop => DRight | DRight => DBottom | DBottom => DLeft | DLeft => DTop end.
Lemma instant_rotate_side b d : side (instant_rotate b) (clockwise d) = side b d.
Proof. destruct d; reflexivity. Qed.

(** ** C49 *)
Lemma from_to_sparse p c : from_sparse_patch (to_sparse_patch p c) =
  Ok (mkDP (mkPatch (p_type (dp p)) (p_act (dp p)) (p_id (dp p)) None None) (db p)).
Proof. reflexivity. Qed.
Lemma from_to_sparse_iff p c : from_sparse_patch (to_sparse_patch p c) = Ok p <->
  p_label (dp p) = None /\ p_op (dp p) = None.
Proof.
  rewrite from_to_sparse. destruct p as [[t a i l o] b]. cbn. split.
  - intros H. inversion H; subst. split; reflexivity.
  - intros [-> ->]. reflexivity.
Qed.
Lemma get_cells_iff p : get_cells p = tiles_of p <->
  match sp_cells p with Single _ => True | Multi l => l = [] end.
Proof.
  unfold get_cells, tiles_of. destruct (sp_cells p) as [c|l]; [tauto|].
  split; [|intros ->; reflexivity].
  intros H. apply (f_equal (@length cell)) in H. rewrite app_length, repeat_length, map_length in H.
  destruct l; [reflexivity|cbn in H; lia].
Qed.
