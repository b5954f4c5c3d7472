From Verif Require Import Base TextModel TextSpec.

Lemma text_eqb_eq a b : text_eqb a b = true <-> a = b.
Proof.
  revert b; induction a as [|x a IH]; intros [|y b]; cbn; split; intros H; try congruence.
  - apply andb_true_iff in H. destruct H as [H1 H2].
    apply Ascii.eqb_eq in H1. apply IH in H2. congruence.
  - inversion H; subst. rewrite Ascii.eqb_refl. apply IH. reflexivity.
Qed.
Lemma text_eqb_refl a : text_eqb a a = true.
Proof. apply text_eqb_eq; reflexivity. Qed.
Lemma text_eqb_neq a b : text_eqb a b = false <-> a <> b.
Proof.
  destruct (text_eqb a b) eqn:E; split; intros H; try congruence.
  - apply text_eqb_eq in E. congruence.
  - intros ->. rewrite text_eqb_refl in E. congruence.
Qed.

(** ** split_on *)
Lemma split_go_fields d s : forall st acc,
  Forall (fun f => ~ In d f) (if existsb (Ascii.eqb d) acc then [] else split_go d st acc s).
Proof.
  induction s as [|c r IH]; intros st acc; cbn.
  - destruct (existsb (Ascii.eqb d) acc) eqn:E; [constructor|].
    destruct acc as [|a acc].
    + destruct st; repeat constructor. cbn; tauto.
    + repeat constructor. intros Hin. apply in_rev in Hin.
      assert (existsb (Ascii.eqb d) (a :: acc) = true); [|congruence].
      apply existsb_exists. exists d; split; [exact Hin|apply Ascii.eqb_refl].
  - destruct (existsb (Ascii.eqb d) acc) eqn:E; [constructor|].
    destruct (Ascii.eqb c d) eqn:Ec.
    + constructor; [|exact (IH true [])].
      intros Hin. apply in_rev in Hin.
      assert (existsb (Ascii.eqb d) acc = true); [|congruence].
      apply existsb_exists. exists d; split; [exact Hin|apply Ascii.eqb_refl].
    + specialize (IH st (c :: acc)). cbn in IH.
      rewrite Ascii.eqb_sym, Ec, E in IH. exact IH.
Qed.
Lemma split_on_fields s d : Forall (fun f => ~ In d f) (split_on s d).
Proof. exact (split_go_fields d s false []). Qed.

Lemma split_go_nonempty d s : forall st acc,
  (st = true \/ acc <> [] \/ s <> []) -> split_go d st acc s <> [].
Proof.
  induction s as [|c r IH]; intros st acc H; cbn.
  - destruct acc; [|discriminate]. destruct st; [discriminate|]. intuition congruence.
  - destruct (Ascii.eqb c d); [discriminate|]. apply IH. right; left; discriminate.
Qed.

Lemma split_go_join d s : forall st acc,
  intercalate d (split_go d st acc s) = rev acc ++ s.
Proof.
  induction s as [|c r IH]; intros st acc; cbn [split_go].
  - destruct acc as [|a acc]; [destruct st; reflexivity|]. cbn [intercalate]. now rewrite app_nil_r.
  - destruct (Ascii.eqb c d) eqn:E.
    + apply Ascii.eqb_eq in E. subst c.
      specialize (IH true []). 
      pose proof (split_go_nonempty d r true [] (or_introl eq_refl)) as NE.
      destruct (split_go d true [] r) as [|f fs] eqn:Es; [congruence|].
      change (intercalate d (rev acc :: f :: fs)) with (rev acc ++ d :: intercalate d (f :: fs)).
      rewrite IH. reflexivity.
    + rewrite IH. cbn. now rewrite <- app_assoc.
Qed.
Lemma split_on_join s d : intercalate d (split_on s d) = s.
Proof. exact (split_go_join d s false []). Qed.

Lemma split_go_length d s : forall st acc,
  (st = true \/ acc <> [] \/ s <> []) ->
  length (split_go d st acc s) = S (count_char d s).
Proof.
  unfold count_char.
  induction s as [|c r IH]; intros st acc H; cbn [split_go count_occ].
  - destruct acc; [|reflexivity]. destruct st; [reflexivity|]. intuition congruence.
  - destruct (Ascii.eqb c d) eqn:E.
    + apply Ascii.eqb_eq in E. subst. cbn [length]. rewrite IH by (left; reflexivity).
      destruct (ascii_dec d d); congruence.
    + rewrite IH by (right; left; discriminate).
      destruct (ascii_dec c d) as [->|]; [rewrite Ascii.eqb_refl in E; congruence|reflexivity].
Qed.
Lemma split_on_length s d : s <> [] -> length (split_on s d) = S (count_char d s).
Proof. intros H. apply split_go_length. right; right; exact H. Qed.

Lemma split_go_skip d f : ~ In d f -> forall st acc s,
  split_go d st acc (f ++ s) = split_go d st (rev f ++ acc) s.
Proof.
  induction f as [|c f IH]; intros Hn st acc s; cbn; [reflexivity|].
  destruct (Ascii.eqb c d) eqn:E; [apply Ascii.eqb_eq in E; subst; exfalso; apply Hn; left; reflexivity|].
  rewrite IH by (intros H; apply Hn; right; exact H). now rewrite <- app_assoc.
Qed.

Lemma split_go_intercalate d l : l <> [] -> Forall (fun f => ~ In d f) l ->
  forall st, (st = true \/ l <> [[]]) -> split_go d st [] (intercalate d l) = l.
Proof.
  induction l as [|f l IH]; intros Hn HF st Hst; [congruence|].
  inversion HF as [|? ? Hf HF']; subst.
  destruct l as [|g l].
  - cbn [intercalate]. rewrite <- (app_nil_r f) at 1. rewrite split_go_skip by exact Hf.
    rewrite app_nil_r. cbn. destruct (rev f) as [|a ra] eqn:Er.
    + assert (f = []) as -> by (rewrite <- (rev_involutive f), Er; reflexivity).
      destruct Hst as [->|Hst]; [reflexivity|congruence].
    + rewrite <- Er, rev_involutive. reflexivity.
  - change (intercalate d (f :: g :: l)) with (f ++ d :: intercalate d (g :: l)).
    rewrite split_go_skip by exact Hf. cbn [split_go]. rewrite Ascii.eqb_refl, app_nil_r, rev_involutive.
    f_equal. apply IH; [discriminate|exact HF'|left; reflexivity].
Qed.
Lemma split_on_intercalate d l :
  l <> [] -> l <> [[]] -> Forall (fun f => ~ In d f) l -> split_on (intercalate d l) d = l.
Proof. intros. apply split_go_intercalate; auto. Qed.

(** ** find_char *)
Lemma find_char_some s c a b : find_char s c = Some (a, b) -> s = a ++ c :: b /\ ~ In c a.
Proof.
  revert a b. induction s as [|x r IH]; intros a b H; cbn in H; [discriminate|].
  destruct (Ascii.eqb x c) eqn:E.
  - apply Ascii.eqb_eq in E. inversion H; subst. split; [reflexivity|tauto].
  - destruct (find_char r c) as [[a' b']|] eqn:F; [|discriminate]. inversion H; subst.
    destruct (IH _ _ eq_refl) as [-> Hn]. split; [reflexivity|].
    intros [->|Hin]; [rewrite Ascii.eqb_refl in E; discriminate|tauto].
Qed.
Lemma find_char_none s c : find_char s c = None <-> ~ In c s.
Proof.
  induction s as [|x r IH]; cbn; [tauto|].
  destruct (Ascii.eqb x c) eqn:E.
  - apply Ascii.eqb_eq in E. split; [discriminate|intros H; exfalso; apply H; left; exact E].
  - destruct (find_char r c) as [[a b]|].
    + split; [discriminate|]. intros H. exfalso. 
      assert (~ In c r) as Hn by tauto. apply IH in Hn. discriminate.
    + split; [|reflexivity]. intros _ [->|Hin]; [rewrite Ascii.eqb_refl in E; discriminate|]. apply IH in Hin; auto.
Qed.
Lemma find_char_app a c b : ~ In c a -> find_char (a ++ c :: b) c = Some (a, b).
Proof.
  induction a as [|x a IH]; intros Hn; cbn; [now rewrite Ascii.eqb_refl|].
  destruct (Ascii.eqb x c) eqn:E; [apply Ascii.eqb_eq in E; subst; exfalso; apply Hn; left; reflexivity|].
  rewrite IH; [reflexivity|]. intros H; apply Hn; right; exact H.
Qed.
Lemma contains_In s c : contains s c = true <-> In c s.
Proof.
  unfold contains. destruct (find_char s c) as [[a b]|] eqn:E.
  - apply find_char_some in E. destruct E as [-> _]. split; [intros _|reflexivity].
    apply in_or_app. right; left; reflexivity.
  - apply find_char_none in E. split; [discriminate|tauto].
Qed.

(** ** str_replace *)
Lemma substitute_notin s t r : ~ In t s -> substitute s t r = s.
Proof.
  unfold substitute. induction s as [|c s IH]; intros Hn; cbn; [reflexivity|].
  destruct (Ascii.eqb c t) eqn:E; [apply Ascii.eqb_eq in E; subst; exfalso; apply Hn; left; reflexivity|].
  cbn. f_equal. apply IH. intros H; apply Hn; right; exact H.
Qed.
Lemma substitute_app a b t r : substitute (a ++ b) t r = substitute a t r ++ substitute b t r.
Proof. apply flat_map_app. Qed.
Lemma substitute_cons_t b t r : substitute (t :: b) t r = r ++ substitute b t r.
Proof. unfold substitute; cbn. now rewrite Ascii.eqb_refl. Qed.

(** If the text is [pre ++ t :: tail] with the last occurrence of [t] shown,
    the loop produces the substitution of [pre ++ [t]]; [tail] is lost. *)
Lemma str_replace_loop_spec fuel : forall s t r out pre tail,
  length s < fuel -> s = pre ++ t :: tail -> ~ In t tail ->
  str_replace_loop fuel s t r out = out ++ substitute (pre ++ [t]) t r.
Proof.
  induction fuel as [|f IH]; intros s t r out pre tail Hl Hs Hn; [lia|].
  cbn [str_replace_loop].
  destruct (find_char s t) as [[a b]|] eqn:F.
  2:{ apply find_char_none in F. exfalso. apply F. rewrite Hs. apply in_or_app. right; left; reflexivity. }
  apply find_char_some in F. destruct F as [Fs Fa].
  destruct (in_dec ascii_dec t b) as [Hb|Hb].
  - (* another occurrence: pre = a ++ t :: pre' *)
    assert (exists pre', pre = a ++ t :: pre' /\ b = pre' ++ t :: tail) as (pre' & -> & Hb').
    { assert (find_char s t = Some (a, b)) as F1 by (rewrite Fs; apply find_char_app; exact Fa).
      destruct (find_char pre t) as [[a2 b2]|] eqn:F2.
      - apply find_char_some in F2. destruct F2 as [-> F2n].
        rewrite Hs in F1. rewrite <- app_assoc in F1. cbn in F1. rewrite find_char_app in F1 by exact F2n.
        inversion F1; subst. exists b2. split; reflexivity.
      - apply find_char_none in F2. rewrite Hs in F1. rewrite find_char_app in F1 by exact F2.
        inversion F1; subst. contradiction. }
    rewrite (IH b t r _ pre' tail).
    + rewrite <- !app_assoc. cbn. rewrite (substitute_app a), substitute_cons_t, (substitute_notin a) by exact Fa.
      rewrite <- ?app_assoc; reflexivity.
    + rewrite Fs, app_length in Hl. cbn [length] in Hl. lia.
    + exact Hb'.
    + exact Hn.
  - assert (a = pre /\ b = tail) as [-> ->].
    { assert (find_char s t = Some (a, b)) as F1 by (rewrite Fs; apply find_char_app; exact Fa).
      destruct (find_char pre t) as [[a2 b2]|] eqn:F2.
      - apply find_char_some in F2. destruct F2 as [-> F2n].
        rewrite Hs, <- app_assoc in F1. cbn in F1. rewrite find_char_app in F1 by exact F2n.
        inversion F1; subst. exfalso. apply Hb. apply in_or_app; right; left; reflexivity.
      - apply find_char_none in F2. rewrite Hs in F1. rewrite find_char_app in F1 by exact F2.
        inversion F1; subst. split; reflexivity. }
    destruct f as [|f]; cbn [str_replace_loop].
    + rewrite substitute_app, (substitute_notin pre) by exact Fa.
      unfold substitute; cbn. rewrite Ascii.eqb_refl, app_nil_r. reflexivity.
    + replace (find_char tail t) with (@None (text * text)) by (symmetry; apply find_char_none; exact Hn).
      rewrite substitute_app, (substitute_notin pre) by exact Fa.
      unfold substitute; cbn. rewrite Ascii.eqb_refl, app_nil_r. reflexivity.
Qed.

Lemma last_occurrence (s : text) (t : ascii) : In t s -> exists pre tail, s = pre ++ t :: tail /\ ~ In t tail.
Proof.
  induction s as [|c s IH]; intros H; [destruct H|].
  destruct (in_dec ascii_dec t s) as [Hin|Hn].
  - destruct (IH Hin) as (pre & tail & -> & Ht). exists (c :: pre), tail. split; [reflexivity|exact Ht].
  - destruct H as [->|H]; [|contradiction]. exists [], s. split; [reflexivity|exact Hn].
Qed.

Lemma str_replace_notin s t r : ~ In t s -> str_replace s t r = s.
Proof.
  intros H. unfold str_replace. destruct (contains s t) eqn:E; [apply contains_In in E; contradiction|reflexivity].
Qed.
Lemma str_replace_last pre tail t r : ~ In t tail ->
  str_replace (pre ++ t :: tail) t r = substitute (pre ++ [t]) t r.
Proof.
  intros Hn. unfold str_replace.
  replace (contains (pre ++ t :: tail) t) with true.
  - erewrite str_replace_loop_spec; [reflexivity| |reflexivity|exact Hn]. lia.
  - symmetry. apply contains_In. apply in_or_app; right; left; reflexivity.
Qed.

Lemma str_replace_correct_iff s t r :
  str_replace s t r = substitute s t r <-> (~ In t s \/ exists pre, s = pre ++ [t]).
Proof.
  split.
  - intros H. destruct (in_dec ascii_dec t s) as [Hin|Hn]; [right|left; exact Hn].
    destruct (last_occurrence s t Hin) as (pre & tail & -> & Ht).
    rewrite str_replace_last in H by exact Ht.
    replace (pre ++ t :: tail) with ((pre ++ [t]) ++ tail) in H by (now rewrite <- app_assoc).
    rewrite (substitute_app (pre ++ [t]) tail), (substitute_notin tail) in H by exact Ht.
    destruct tail as [|c tail]; [exists pre; reflexivity|].
    apply (f_equal (@length ascii)) in H. rewrite app_length in H. cbn in H. lia.
  - intros [Hn|(pre & ->)].
    + rewrite str_replace_notin, substitute_notin by exact Hn. reflexivity.
    + apply (str_replace_last pre [] t r). intros [].
Qed.

(** ** join *)
Lemma join_go_spec d l : forall acc, join_go acc [d] l = acc ++ concat (map (cons d) l).
Proof.
  induction l as [|v l IH]; intros acc; cbn; [now rewrite app_nil_r|].
  rewrite IH. now rewrite <- app_assoc.
Qed.
Lemma intercalate_concat d v l : intercalate d (v :: l) = v ++ concat (map (cons d) l).
Proof.
  revert v. induction l as [|w l IH]; intros v; [cbn; now rewrite app_nil_r|].
  change (intercalate d (v :: w :: l)) with (v ++ d :: intercalate d (w :: l)).
  rewrite IH. reflexivity.
Qed.
Lemma join_intercalate d l : join l [d] = intercalate d l.
Proof. destruct l as [|v l]; [reflexivity|]. cbn [join]. now rewrite join_go_spec, intercalate_concat. Qed.

(** ** decimal numbers *)
Lemma digit_val_char d : (d < 10)%N -> digit_val (digit_char d) = d.
Proof.
  intros H. unfold digit_val, digit_char. rewrite N_ascii_embedding by lia. lia.
Qed.
Lemma is_digit_char d : (d < 10)%N -> is_digit (digit_char d) = true.
Proof.
  intros H. unfold is_digit, digit_char. rewrite N_ascii_embedding by lia. lia.
Qed.

Definition no_digit_head (s : text) : Prop :=
  match s with c :: _ => is_digit c = false | [] => True end.

Lemma read_digits_nodigit s v any : no_digit_head s -> read_digits s v any = (v, any, s).
Proof. destruct s as [|c s]; cbn; intros H; [reflexivity|now rewrite H]. Qed.

Lemma size_nat_div10 n : (n <> 0)%N -> N.size_nat (n / 10) < N.size_nat n.
Proof.
  intros H. destruct (N.eq_dec (n / 10) 0) as [E|E].
  - rewrite E. destruct n as [|p]; [congruence|]. cbn. destruct p; cbn; lia.
  - assert (N.size_nat n = N.to_nat (N.size n)) as ->.
    { destruct n; [reflexivity|]. cbn. clear. induction p; cbn; lia. }
    assert (forall m, N.size_nat m = N.to_nat (N.size m)) as ->.
    { intros [|p]; [reflexivity|]. cbn. clear. induction p; cbn; lia. }
    rewrite !N.size_log2 by assumption.
    assert (N.log2 (n / 10) < N.log2 n)%N; [|lia].
    assert (N.log2 (n / 10) <= N.log2 (n / 2))%N.
    { apply N.log2_le_mono. apply N.div_le_compat_l. lia. }
    assert (n / 10 <= n / 2)%N by (apply N.div_le_compat_l; lia).
    assert (N.log2 n = N.succ (N.log2 (n / 2)))%N; [|lia].
    rewrite <- N.div2_div.
    rewrite (N.div2_odd n) at 1.
    destruct (N.odd n); cbn [N.b2n].
    + rewrite N.log2_succ_double; [reflexivity|]. rewrite N.div2_div. lia.
    + rewrite N.add_0_r, N.log2_double; [reflexivity|]. rewrite N.div2_div. lia.
Qed.

(** dec_go prepends digits whose reading continues any accumulated value. *)
Lemma dec_go_read fuel : forall n acc v any,
  N.size_nat n < fuel ->
  exists k : N, (forall w, read_digits (dec_go fuel n acc) w any =
               read_digits acc (w * 10 ^ k + n)%N true) /\ (v = 0%N -> True).
Proof.
  induction fuel as [|f IH]; intros n acc v any Hf; [lia|].
  cbn [dec_go].
  assert (n mod 10 < 10)%N as Hm by (apply N.mod_lt; lia).
  destruct (N.eqb_spec (n / 10) 0) as [E|E].
  - exists 1%N. split; [|trivial]. intros w. cbn [read_digits].
    rewrite is_digit_char, digit_val_char by exact Hm.
    f_equal. rewrite N.pow_1_r. assert (n < 10)%N by (apply N.div_small_iff in E; lia).
    rewrite N.mod_small by lia. lia.
  - assert (n <> 0)%N as Hn by (intros ->; apply E; reflexivity).
    destruct (IH (n / 10)%N (digit_char (n mod 10) :: acc) v any) as (k & Hk & _).
    { pose proof (size_nat_div10 n Hn). lia. }
    exists (k + 1)%N. split; [|trivial]. intros w. rewrite Hk. cbn [read_digits].
    rewrite is_digit_char, digit_val_char by exact Hm. f_equal.
    rewrite N.pow_add_r, N.pow_1_r. pose proof (N.div_mod n 10). lia.
Qed.
Lemma read_print n rest any : no_digit_head rest ->
  read_digits (print_N n ++ rest) 0 any = (n, true, rest).
Proof.
  intros Hr. unfold print_N.
  assert (forall fuel n acc, dec_go fuel n acc ++ rest = dec_go fuel n (acc ++ rest)) as Happ.
  { induction fuel as [|f IH]; intros m acc; cbn [dec_go]; [reflexivity|].
    destruct (m / 10 =? 0)%N; [reflexivity|]. now rewrite IH. }
  rewrite Happ. cbn [app].
  destruct (dec_go_read (S (N.size_nat n)) n rest 0%N any) as (k & Hk & _); [lia|].
  rewrite Hk. rewrite read_digits_nodigit by exact Hr. reflexivity.
Qed.

Lemma dec_go_digits fuel : forall n acc, Forall (fun c => is_digit c = true) acc ->
  Forall (fun c => is_digit c = true) (dec_go fuel n acc).
Proof.
  induction fuel as [|f IH]; intros n acc H; cbn [dec_go]; [exact H|].
  assert (Forall (fun c => is_digit c = true) (digit_char (n mod 10) :: acc)) as H'.
  { constructor; [|exact H]. apply is_digit_char. apply N.mod_lt. lia. }
  destruct (n / 10 =? 0)%N; [exact H'|apply IH; exact H'].
Qed.
Lemma print_N_digits n : Forall (fun c => is_digit c = true) (print_N n).
Proof. apply dec_go_digits. constructor. Qed.
Lemma dec_go_nonempty fuel n acc : 0 < fuel -> dec_go fuel n acc <> [].
Proof.
  revert n acc. induction fuel as [|f IH]; intros n acc H; [lia|]. cbn [dec_go].
  destruct (n / 10 =? 0)%N; [discriminate|]. destruct f; [cbn; discriminate|]. apply IH. lia.
Qed.
Lemma print_N_nonempty n : print_N n <> [].
Proof. apply dec_go_nonempty. lia. Qed.
Lemma print_N_notin n c : is_digit c = false -> ~ In c (print_N n).
Proof.
  intros H Hin. pose proof (print_N_digits n) as HF. rewrite Forall_forall in HF.
  apply HF in Hin. congruence.
Qed.
Lemma print_N_inj n m : print_N n = print_N m -> n = m.
Proof.
  intros H. pose proof (read_print n [] true I) as H1. pose proof (read_print m [] true I) as H2.
  rewrite H in H1. rewrite H1 in H2. congruence.
Qed.
Lemma from_chars_print n rest : (n < 2 ^ 31)%N -> no_digit_head rest ->
  from_chars_int (print_N n ++ rest) = FCValue (Z.of_N n).
Proof.
  intros Hn Hr. unfold from_chars_int.
  destruct (print_N n ++ rest) as [|c s] eqn:E.
  { apply app_eq_nil in E. destruct E as [E _]. now apply print_N_nonempty in E. }
  assert (is_digit c = true) as Hc.
  { destruct (print_N n) as [|c' s'] eqn:Ep; [now apply print_N_nonempty in Ep|].
    inversion E; subst. pose proof (print_N_digits n) as HF. rewrite Ep in HF. inversion HF; assumption. }
  assert (Ascii.eqb c "-" = false) as ->.
  { destruct (Ascii.eqb_spec c "-"); [subst c; discriminate Hc|reflexivity]. }
  rewrite <- E, read_print by exact Hr.
  assert (((- 2 ^ 31 <=? Z.of_N n) && (Z.of_N n <? 2 ^ 31))%Z = true) as ->; [|reflexivity].
  assert (Z.of_N n < 2 ^ 31)%Z by (change (2 ^ 31)%Z with (Z.of_N (2 ^ 31)); lia). lia.
Qed.
