From Coq Require Import QArith Lqa.
From Verif Require Import Base TextModel TextSpec TextProofs PatchesModel InstrModel InstrProofs GatesModel GatesSpec.
Open Scope nat_scope.

(** ** Names *)
Lemma cnot_type_from_to t : cnot_type_from_string (cnot_type_to_string t) = Some t.
Proof. destruct t; vm_compute; reflexivity. Qed.
Lemma cnot_type_from_iff s t : cnot_type_from_string s = Some t <-> names_cnot_type s t.
Proof.
  unfold names_cnot_type. split; intros H.
  - unfold cnot_type_from_string in H.
    destruct (text_eqb s (cnot_type_to_string ControlFirst)) eqn:E1; [apply text_eqb_eq in E1; injection H as <-; exact E1|].
    destruct (text_eqb s (cnot_type_to_string TargetFirst)) eqn:E2; [apply text_eqb_eq in E2; injection H as <-; exact E2|].
    destruct (text_eqb s (cnot_type_to_string BellBased)) eqn:E3; [apply text_eqb_eq in E3; injection H as <-; exact E3|].
    discriminate.
  - subst s. destruct t; vm_compute; reflexivity.
Qed.
Lemma placement_from_to t : placement_from_string (placement_to_string t) = Some t.
Proof. destruct t; vm_compute; reflexivity. Qed.
Lemma placement_from_iff s t : placement_from_string s = Some t <-> names_placement s t.
Proof.
  unfold names_placement. split; intros H.
  - unfold placement_from_string in H.
    destruct (text_eqb s (placement_to_string DedicatedCell)) eqn:E1; [apply text_eqb_eq in E1; injection H as <-; exact E1|].
    destruct (text_eqb s (placement_to_string NextToControl)) eqn:E2; [apply text_eqb_eq in E2; injection H as <-; exact E2|].
    destruct (text_eqb s (placement_to_string NextToTarget)) eqn:E3; [apply text_eqb_eq in E3; injection H as <-; exact E3|].
    discriminate.
  - subst s. destruct t; vm_compute; reflexivity.
Qed.

Lemma first_some_named {A} (f : text -> option A) (names : text -> A -> Prop) d l a :
  (forall w b, f w = Some b <-> names w b) ->
  first_named names d l a -> first_some f l d = a.
Proof.
  intros Hf H. induction H as [|w ws a Hn|w ws a Hn H IH]; cbn; [reflexivity| |].
  - apply Hf in Hn. now rewrite Hn.
  - destruct (f w) as [b|] eqn:E; [|exact IH]. apply Hf in E. exfalso. exact (Hn b E).
Qed.

(** ** Reading numbers *)
Definition digits (s : text) : Prop := Forall (fun c => is_digit c = true) s.

Lemma is_digit_range c : is_digit c = true -> (48 <= N_of_ascii c <= 57)%N.
Proof. unfold is_digit. lia. Qed.
Lemma digits_notin s c : digits s -> is_digit c = false -> ~ In c s.
Proof.
  intros Hd Hc Hin. unfold digits in Hd. rewrite Forall_forall in Hd. apply Hd in Hin. congruence.
Qed.
Lemma digits_c_str s : digits s -> c_str s = s.
Proof.
  induction 1 as [|c s Hc _ IH]; [reflexivity|]. cbn.
  destruct (Ascii.eqb c zero) eqn:E; [apply Ascii.eqb_eq in E; subst c; discriminate Hc|]. now rewrite IH.
Qed.
Lemma digit_not_space c : is_digit c = true -> isspace c = false.
Proof. unfold is_digit, isspace. lia. Qed.
Lemma digits_ltrim s : digits s -> ltrim s = s.
Proof. intros [|c r Hc _]; [reflexivity|]. cbn. now rewrite digit_not_space. Qed.
Lemma digits_strtol n : strtol10 (print_N n) = Some (Z.of_N n, []).
Proof.
  unfold strtol10. rewrite digits_ltrim by apply print_N_digits.
  assert (Hd := print_N_digits n). assert (Hne := print_N_nonempty n).
  assert (Hr := read_print n [] false I). rewrite app_nil_r in Hr.
  destruct (print_N n) as [|c r] eqn:E; [congruence|].
  inversion Hd as [|? ? Hc _]; subst.
  replace (Ascii.eqb c "-") with false by (symmetry; apply Ascii.eqb_neq; intros ->; discriminate Hc).
  replace (Ascii.eqb c "+") with false by (symmetry; apply Ascii.eqb_neq; intros ->; discriminate Hc).
  rewrite Hr. reflexivity.
Qed.
Lemma try_parse_long_print n : (n < 2 ^ 63)%N -> try_parse_long (print_N n) = Ok (Z.of_N n).
Proof.
  intros H. unfold try_parse_long. rewrite digits_c_str by apply print_N_digits. rewrite digits_strtol.
  change (2 ^ 63)%N with 9223372036854775808%N in H. change (2 ^ 63)%Z with 9223372036854775808%Z.
  match goal with |- (if ?b then _ else _) = _ => destruct b eqn:E end; [exfalso; lia|reflexivity].
Qed.
Lemma try_parse_long_big n : (2 ^ 63 <= n)%N -> try_parse_long (print_N n) = Throw ParseException.
Proof.
  intros H. unfold try_parse_long. rewrite digits_c_str by apply print_N_digits. rewrite digits_strtol.
  change (2 ^ 63)%N with 9223372036854775808%N in H. change (2 ^ 63)%Z with 9223372036854775808%Z.
  match goal with |- (if ?b then _ else _) = _ => destruct b eqn:E end; [reflexivity|exfalso; lia].
Qed.
Lemma try_parse_qubit_print n : (n < 2 ^ 63)%N -> try_parse_qubit (print_N n) = Ok (n mod 2 ^ 32)%N.
Proof.
  intros H. unfold try_parse_qubit. rewrite try_parse_long_print by exact H. cbn [bind].
  f_equal. change (2 ^ 32)%Z with (Z.of_N (2 ^ 32)). rewrite <- N2Z.inj_mod. apply N2Z.id.
Qed.

(** ** Operands *)
Lemma split_two a d b : ~ In d a -> ~ In d b -> split_on (a ++ d :: b) d = [a; b].
Proof.
  intros Ha Hb. change (a ++ d :: b) with (intercalate d [a; b]).
  apply split_on_intercalate; [discriminate|discriminate|]. repeat apply Forall_cons; auto.
Qed.
Lemma split_head a d b : ~ In d a -> exists r, split_on (a ++ d :: b) d = a :: r.
Proof.
  intros Ha. unfold split_on. rewrite split_go_skip by exact Ha. cbn [split_go].
  rewrite Ascii.eqb_refl, app_nil_r, rev_involutive. eauto.
Qed.
Lemma print_N_no c n : is_digit c = false -> ~ In c (print_N n).
Proof. intros H. apply digits_notin; [apply print_N_digits|exact H]. Qed.

Lemma plain_notin s c : plain s -> In c (lit " ;,[]/(") -> ~ In c s.
Proof. intros Hp Hc Hin. unfold plain in Hp. rewrite Forall_forall in Hp. exact (Hp c Hin Hc). Qed.
Ltac inlit := cbn; tauto.

Lemma operand_split reg i : plain reg ->
  split_on (operand reg i) "[" = [reg; print_N i ++ lit "]"].
Proof.
  intros Hp. unfold operand. change (lit "[" ++ print_N i ++ lit "]") with ("["%char :: print_N i ++ lit "]").
  apply split_two; [apply plain_notin; [exact Hp|inlit]|].
  intros Hin. apply in_app_or in Hin. destruct Hin as [Hin|Hin].
  - revert Hin. now apply print_N_no.
  - cbn in Hin. destruct Hin as [Hin|[]]; discriminate.
Qed.
Lemma index_of_operand reg i : plain reg ->
  get_index_arg (operand reg i) = try_parse_qubit (print_N i).
Proof.
  intros Hp. unfold get_index_arg. rewrite operand_split by exact Hp. cbn [at_ nth_error bind].
  destruct (split_head (print_N i) "]" []) as [r Hr]; [now apply print_N_no|].
  change (lit "]") with (["]"%char]). rewrite Hr. reflexivity.
Qed.
Lemma index_of_operand_ok reg i : plain reg -> (i < 2 ^ 63)%N ->
  get_index_arg (operand reg i) = Ok (i mod 2 ^ 32)%N.
Proof. intros. rewrite index_of_operand by assumption. now apply try_parse_qubit_print. Qed.
Lemma index_of_operand_big reg i : plain reg -> (2 ^ 63 <= i)%N ->
  get_index_arg (operand reg i) = Throw ParseException.
Proof.
  intros. rewrite index_of_operand by assumption. unfold try_parse_qubit.
  now rewrite try_parse_long_big.
Qed.
Lemma operand_no reg i c : plain reg -> In c (lit " ;,/(") -> ~ In c (operand reg i).
Proof.
  intros Hp Hc Hin. unfold operand in Hin. apply in_app_or in Hin. destruct Hin as [Hin|Hin].
  - revert Hin. apply plain_notin; [exact Hp|]. cbn in *. tauto.
  - apply in_app_or in Hin. destruct Hin as [Hin|Hin].
    + cbn in *. destruct Hin as [<-|[]]. repeat (destruct Hc as [Hc|Hc]; [discriminate Hc|]). exact Hc.
    + apply in_app_or in Hin. destruct Hin as [Hin|Hin].
      * revert Hin. apply print_N_no.
        cbn in Hc. repeat (destruct Hc as [<-|Hc]; [reflexivity|]). destruct Hc.
      * cbn in *. destruct Hin as [<-|[]]. repeat (destruct Hc as [Hc|Hc]; [discriminate Hc|]). exact Hc.
Qed.
Lemma operand_drop_spaces reg i ws : plain reg -> spaces ws -> drop_spaces (ws ++ operand reg i) = operand reg i.
Proof.
  intros Hp Hw. induction Hw as [|c ws -> _ IH]; [|exact IH]. cbn [app].
  assert (H := operand_no reg i " " Hp ltac:(inlit)).
  destruct (operand reg i) as [|c r]; [reflexivity|]. cbn.
  destruct (Ascii.eqb c " ") eqn:E; [|reflexivity]. apply Ascii.eqb_eq in E. subst. exfalso. apply H. left; reflexivity.
Qed.

(** ** Lines *)
Lemma strip_prefix_some p s r : strip_prefix p s = Some r <-> s = p ++ r.
Proof.
  revert s. induction p as [|x p IH]; intros s; cbn.
  - split; [intros [= ->]; reflexivity|intros ->; reflexivity].
  - destruct s as [|y s]; [split; discriminate|]. destruct (Ascii.eqb x y) eqn:E.
    + apply Ascii.eqb_eq in E. subst y. rewrite IH. split; [intros ->; reflexivity|intros [= ->]; reflexivity].
    + apply Ascii.eqb_neq in E. split; [discriminate|intros [= H _]; congruence].
Qed.
Lemma strip_prefix_app p r : strip_prefix p (p ++ r) = Some r.
Proof. now apply strip_prefix_some. Qed.

Definition annots_of (tail : text) : list text :=
  match strip_prefix (lit " // %") tail with Some r => split_on r "," | None => [] end.

Lemma annotated_annots tail words : annotated tail words -> annots_of tail = words.
Proof.
  unfold annots_of. intros [(rest & -> & Hr & Hf & Hw)|[Hn ->]].
  - rewrite strip_prefix_app. destruct words as [|w ws]; [cbn in Hr; subst; reflexivity|].
    subst rest. apply split_on_intercalate; [discriminate|exact Hw|exact Hf].
  - destruct (strip_prefix (lit " // %") tail) as [r|] eqn:E; [|reflexivity].
    apply strip_prefix_some in E. exfalso. exact (Hn r E).
Qed.

Lemma split_line name operands tail :
  ~ In " "%char name -> ~ In ";"%char name -> ~ In ";"%char operands -> ~ In ";"%char tail ->
  split_instruction_and_args (name ++ " "%char :: operands ++ ";"%char :: tail) =
  Ok (mkLine name (map drop_spaces (split_on operands ",")) (annots_of tail)).
Proof.
  intros H1 H2 H3 H4. unfold split_instruction_and_args.
  replace (contains (name ++ " "%char :: operands ++ ";"%char :: tail) " ") with true.
  2:{ symmetry. apply contains_In. apply in_or_app. right. left. reflexivity. }
  cbn [negb]. cbv iota.
  replace (name ++ " "%char :: operands ++ ";"%char :: tail) with ((name ++ " "%char :: operands) ++ ";"%char :: tail)
    by (rewrite <- app_assoc; reflexivity).
  rewrite split_two.
  - cbn [at_ nth_error bind]. unfold split_on_first. rewrite find_char_app by exact H1. reflexivity.
  - intros Hin. apply in_app_or in Hin. destruct Hin as [Hin|[Hin|Hin]]; [tauto|discriminate|tauto].
  - exact H4.
Qed.

Lemma spaces_ltrim ws s : spaces ws -> ltrim (ws ++ s) = ltrim s.
Proof. induction 1 as [|c ws -> _ IH]; [reflexivity|]. cbn. exact IH. Qed.

(** [parse_gate] on a line of the shape above *)
Definition good_name (name : text) : Prop :=
  ~ In " "%char name /\ ~ In ";"%char name /\
  match name with c :: _ => isspace c = false /\ c <> "/"%char | [] => False end /\
  is_ignored_instruction name = false /\ name <> lit "qreg".

Lemma parse_gate_line dflt ws name operands tail :
  spaces ws -> good_name name -> ~ In ";"%char operands -> ~ In ";"%char tail ->
  parse_gate dflt (line ws name operands tail) =
  do g <- parse_qasm_gate dflt (mkLine name (map drop_spaces (split_on operands ",")) (annots_of tail)) ;;
  Ok (PGate g).
Proof.
  intros Hw (H1 & H2 & H3 & H4 & H5) Ho Ht. unfold parse_gate, line. rewrite spaces_ltrim by exact Hw.
  destruct name as [|c name]; [destruct H3|]. destruct H3 as [Hs Hc].
  cbn [app ltrim]. rewrite Hs. cbn [idx nth_error bind].
  replace (Ascii.eqb c "/") with false by (symmetry; now apply Ascii.eqb_neq). cbn [bind].
  change (c :: name ++ " "%char :: operands ++ ";"%char :: tail) with ((c :: name) ++ " "%char :: operands ++ ";"%char :: tail).
  rewrite split_line by assumption. cbn [bind ln_instr ln_args]. rewrite H4.
  replace (text_eqb (c :: name) (lit "qreg")) with false by (symmetry; now apply text_eqb_neq).
  reflexivity.
Qed.

Lemma one_operand ws reg i : plain reg -> spaces ws ->
  map drop_spaces (split_on (ws ++ operand reg i) ",") = [operand reg i].
Proof.
  intros Hp Hw.
  assert (~ In ","%char (ws ++ operand reg i)) as Hn.
  { intros H. apply in_app_or in H. destruct H as [H|H].
    - unfold spaces in Hw. rewrite Forall_forall in Hw. apply Hw in H. discriminate.
    - revert H. apply operand_no; [exact Hp|inlit]. }
  change (ws ++ operand reg i) with (intercalate "," [ws ++ operand reg i]).
  rewrite split_on_intercalate.
  - cbn [map]. now rewrite operand_drop_spaces.
  - discriminate.
  - intros [= H]. apply app_eq_nil in H. destruct H as [_ H]. unfold operand in H.
    apply app_eq_nil in H. destruct H as [_ H]. discriminate H.
  - constructor; [exact Hn|constructor].
Qed.
Lemma two_operands ws1 ws2 r1 r2 i j : plain r1 -> plain r2 -> spaces ws1 -> spaces ws2 ->
  map drop_spaces (split_on (ws1 ++ operand r1 i ++ ","%char :: ws2 ++ operand r2 j) ",") = [operand r1 i; operand r2 j].
Proof.
  intros Hp1 Hp2 Hw1 Hw2.
  assert (forall ws reg k, plain reg -> spaces ws -> ~ In ","%char (ws ++ operand reg k)) as Hn.
  { intros ws reg k Hp Hw H. apply in_app_or in H. destruct H as [H|H].
    - unfold spaces in Hw. rewrite Forall_forall in Hw. apply Hw in H. discriminate.
    - revert H. apply operand_no; [exact Hp|inlit]. }
  rewrite app_assoc. rewrite split_two by auto. cbn [map]. now rewrite !operand_drop_spaces.
Qed.
Lemma operands_no_semi ws reg i : plain reg -> spaces ws -> ~ In ";"%char (ws ++ operand reg i).
Proof.
  intros Hp Hw H. apply in_app_or in H. destruct H as [H|H].
  - unfold spaces in Hw. rewrite Forall_forall in Hw. apply Hw in H. discriminate.
  - revert H. apply operand_no; [exact Hp|inlit].
Qed.
Lemma operands2_no_semi ws1 ws2 r1 r2 i j : plain r1 -> plain r2 -> spaces ws1 -> spaces ws2 ->
  ~ In ";"%char (ws1 ++ operand r1 i ++ ","%char :: ws2 ++ operand r2 j).
Proof.
  intros. rewrite app_assoc. intros Hin. apply in_app_or in Hin. destruct Hin as [Hin|[Hin|Hin]].
  - revert Hin. now apply operands_no_semi.
  - discriminate.
  - revert Hin. now apply operands_no_semi.
Qed.

Ltac notin_lit := let H := fresh in intros H; cbn in H; repeat (destruct H as [H|H]; [discriminate H|]); exact H.
Lemma good_basic b : good_name (qasm_name b).
Proof. destruct b; (split; [notin_lit|split; [notin_lit|split; [split; [reflexivity|discriminate]|split; [reflexivity|discriminate]]]]). Qed.
Ltac good_lit := split; [notin_lit|split; [notin_lit|split; [split; [reflexivity|discriminate]|split; [reflexivity|discriminate]]]].

Lemma basic_of_qasm_name b : basic_of_name (qasm_name b) = Some b.
Proof. destruct b; reflexivity. Qed.

Lemma parse_single dflt ws ws' b reg i tail :
  spaces ws -> spaces ws' -> plain reg -> ~ In ";"%char tail ->
  parse_gate dflt (line ws (qasm_name b) (ws' ++ operand reg i) tail) =
  do k <- try_parse_qubit (print_N i) ;; Ok (PGate (GBasic k b)).
Proof.
  intros Hw Hw' Hp Ht. rewrite parse_gate_line; [|assumption|apply good_basic|now apply operands_no_semi|assumption].
  rewrite one_operand by assumption. unfold parse_qasm_gate. cbn [ln_instr ln_args].
  rewrite basic_of_qasm_name. cbn [at_ nth_error bind]. rewrite index_of_operand by assumption.
  destruct (try_parse_qubit (print_N i)); reflexivity.
Qed.

Definition two_ops (ws1 ws2 r1 r2 : text) (i j : N) : text := ws1 ++ operand r1 i ++ ","%char :: ws2 ++ operand r2 j.

Lemma parse_controlled dflt ws ws1 ws2 (isx : bool) r1 r2 c t tail words ct pl :
  spaces ws -> spaces ws1 -> spaces ws2 -> plain r1 -> plain r2 -> ~ In ";"%char tail ->
  (c < 2 ^ 63)%N -> (t < 2 ^ 63)%N ->
  annotated tail words -> first_named names_cnot_type ControlFirst words ct ->
  first_named names_placement dflt words pl ->
  parse_gate dflt (line ws (if isx then lit "cx" else lit "cz") (two_ops ws1 ws2 r1 r2 c t) tail) =
  Ok (PGate (GControlled (c mod 2 ^ 32) (SBasic (t mod 2 ^ 32) (if isx then GX else GZ)) ct pl)).
Proof.
  intros Hw Hw1 Hw2 Hp1 Hp2 Ht Hc Htt Ha Hct Hpl.
  rewrite parse_gate_line; [|assumption|destruct isx; good_lit|now apply operands2_no_semi|assumption].
  unfold two_ops. rewrite two_operands by assumption. rewrite (annotated_annots _ _ Ha).
  unfold parse_qasm_gate. cbn [ln_instr ln_args ln_annot].
  assert (determine_cnot_type words = ct) as -> by (apply (first_some_named _ names_cnot_type); [exact cnot_type_from_iff|exact Hct]).
  assert (determine_placement dflt words = pl) as -> by (apply (first_some_named _ names_placement); [exact placement_from_iff|exact Hpl]).
  destruct isx.
  - change (basic_of_name (lit "cx")) with (@None basic). cbv iota. kws.
    rewrite !index_of_operand_ok by assumption. reflexivity.
  - change (basic_of_name (lit "cz")) with (@None basic). cbv iota. kws.
    rewrite !index_of_operand_ok by assumption. reflexivity.
Qed.

Lemma parse_reset_line dflt ws ws' reg i tail :
  spaces ws -> spaces ws' -> plain reg -> ~ In ";"%char tail -> (i < 2 ^ 63)%N ->
  parse_gate dflt (line ws (lit "reset") (ws' ++ operand reg i) tail) = Ok (PGate (GReset reg (i mod 2 ^ 32))).
Proof.
  intros Hw Hw' Hp Ht Hi. rewrite parse_gate_line; [|assumption|good_lit|now apply operands_no_semi|assumption].
  rewrite one_operand by assumption. unfold parse_qasm_gate. cbn [ln_instr ln_args].
  change (basic_of_name (lit "reset")) with (@None basic). cbv iota. kws.
  change (strip_prefix (lit "rz") (lit "reset")) with (@None text).
  change (strip_prefix (lit "crz") (lit "reset")) with (@None text). cbv iota.
  unfold parse_reset.
  replace (contains (operand reg i) "[") with true.
  2:{ symmetry. apply contains_In. unfold operand. apply in_or_app. right. left. reflexivity. }
  rewrite operand_split by exact Hp. cbn [idx nth_error bind]. rewrite index_of_operand_ok by assumption. reflexivity.
Qed.

(** ** Angles *)
Lemma split_str_skip d c0 f : hd_error d = Some c0 -> ~ In c0 f -> forall fuel acc s,
  length f <= fuel ->
  split_str_go fuel d acc (f ++ s) = split_str_go (fuel - length f) d (rev f ++ acc) s.
Proof.
  intros Hd. induction f as [|c f IH]; intros Hn fuel acc s Hl.
  - cbn. now rewrite Nat.sub_0_r.
  - destruct fuel as [|fuel]; [cbn in Hl; lia|]. cbn [app split_str_go length].
    assert (strip_prefix d (c :: f ++ s) = None) as ->.
    { destruct d as [|x d]; [discriminate|]. injection Hd as ->. cbn.
      destruct (Ascii.eqb c0 c) eqn:E; [|reflexivity]. apply Ascii.eqb_eq in E. subst. exfalso. apply Hn. left; reflexivity. }
    rewrite IH; [|intros H; apply Hn; right; exact H|cbn in Hl; lia].
    cbn [rev]. rewrite <- app_assoc. cbn [Nat.sub]. reflexivity.
Qed.
Lemma split_str_two d c0 a b : hd_error d = Some c0 -> ~ In c0 a -> ~ In c0 b -> b <> [] ->
  split_on_str (a ++ d ++ b) d = [a; b].
Proof.
  intros Hd Ha Hb Hne. unfold split_on_str.
  rewrite (split_str_skip d c0) by (try assumption; rewrite app_length; lia).
  rewrite !app_length. replace (S (length a + (length d + length b)) - length a) with (S (length d + length b)) by lia.
  destruct d as [|x d]; [discriminate|].
  cbn [split_str_go app]. change (x :: d ++ b) with ((x :: d) ++ b). rewrite strip_prefix_app.
  rewrite app_nil_r, rev_involutive. f_equal.
  rewrite <- (app_nil_r b) at 2. rewrite (split_str_skip (x :: d) c0) by (try assumption; cbn; lia).
  cbn [length]. replace (S (length d) + length b - length b) with (S (length d)) by lia.
  cbn [split_str_go]. rewrite app_nil_r.
  destruct (rev b) eqn:E; [apply (f_equal (@rev _)) in E; rewrite rev_involutive in E; cbn in E; congruence|].
  rewrite <- E, rev_involutive. reflexivity.
Qed.
Lemma split_str_star a : ~ In "*"%char a -> split_on_str (a ++ lit "*pi") (lit "*pi/") = [a ++ lit "*pi"].
Proof.
  intros Ha. unfold split_on_str.
  rewrite (split_str_skip (lit "*pi/") "*") by (try reflexivity; try assumption; rewrite app_length; lia).
  rewrite app_length. cbn [lit list_ascii_of_string length].
  replace (S (length a + 3) - length a) with 4 by lia. cbn. rewrite app_nil_r, rev_involutive, <- !app_assoc. reflexivity.
Qed.

Lemma strip_digit p c n s : is_digit c = false -> hd_error p = Some c ->
  strip_prefix p (print_N n ++ s) = None.
Proof.
  intros Hc Hp. assert (Hd := print_N_digits n). assert (Hne := print_N_nonempty n).
  destruct (print_N n) as [|x r]; [congruence|]. destruct p as [|y p]; [discriminate|]. injection Hp as ->. cbn.
  destruct (Ascii.eqb c x) eqn:E; [|reflexivity]. apply Ascii.eqb_eq in E. subst x. inversion Hd. congruence.
Qed.

Lemma parse_angle_written a neg n d : angle_written a neg n d ->
  parse_angle a = Ok (mkFrac (Z.of_N n) (Z.of_N d) neg).
Proof.
  assert (forall neg' n d, (n < 2 ^ 63)%N -> (d < 2 ^ 63)%N ->
    forall k, k = (print_N n ++ lit "*pi/" ++ print_N d) ->
    match strip_prefix (lit "pi/") k with
    | Some r => do d <- try_parse_long r ;; Ok (mkFrac 1 d neg')
    | None =>
      let fin := fun split =>
        match split with
        | [a; b] => do n <- try_parse_long a ;; do d <- try_parse_long b ;; Ok (mkFrac n d neg')
        | _ => Throw ParseException
        end in
      let sp := split_on_str k (lit "*pi/") in
      match sp with
      | [_; _] => fin sp
      | _ => fin (split_on_str (k ++ lit "/1") (lit "*pi/"))
      end
    end = Ok (mkFrac (Z.of_N n) (Z.of_N d) neg')) as K.
  { intros neg' n0 d0 Hn Hd k ->. rewrite (strip_digit _ "p"%char) by reflexivity. cbv zeta.
    rewrite (split_str_two (lit "*pi/") "*" (print_N n0) (print_N d0)); try reflexivity; try (apply print_N_no; reflexivity); try apply print_N_nonempty.
    rewrite !try_parse_long_print by assumption. reflexivity. }
  assert (forall neg' n, (n < 2 ^ 63)%N ->
    forall k, k = (print_N n ++ lit "*pi") ->
    match strip_prefix (lit "pi/") k with
    | Some r => do d <- try_parse_long r ;; Ok (mkFrac 1 d neg')
    | None =>
      let fin := fun split =>
        match split with
        | [a; b] => do n <- try_parse_long a ;; do d <- try_parse_long b ;; Ok (mkFrac n d neg')
        | _ => Throw ParseException
        end in
      let sp := split_on_str k (lit "*pi/") in
      match sp with
      | [_; _] => fin sp
      | _ => fin (split_on_str (k ++ lit "/1") (lit "*pi/"))
      end
    end = Ok (mkFrac (Z.of_N n) 1 neg')) as K1.
  { intros neg' n0 Hn k ->. rewrite (strip_digit _ "p"%char) by reflexivity. cbv zeta.
    rewrite (split_str_star (print_N n0)) by (apply print_N_no; reflexivity).
    replace ((print_N n0 ++ lit "*pi") ++ lit "/1") with (print_N n0 ++ lit "*pi/" ++ lit "1") by (rewrite <- app_assoc; reflexivity).
    rewrite (split_str_two (lit "*pi/") "*" (print_N n0) (lit "1")); try reflexivity; try (apply print_N_no; reflexivity); try discriminate; try notin_lit.
    rewrite !try_parse_long_print by assumption. reflexivity. }
  intros H. destruct H as [d Hd|d Hd|n d Hn Hd|n d Hn Hd|n Hn|n Hn]; unfold parse_angle.
  - change (strip_prefix (lit "-") (lit "pi/" ++ print_N d)) with (@None text). cbv iota.
    rewrite strip_prefix_app, try_parse_long_print by assumption. reflexivity.
  - change (lit "-pi/" ++ print_N d) with (lit "-" ++ (lit "pi/" ++ print_N d)). rewrite strip_prefix_app. cbv iota.
    rewrite strip_prefix_app, try_parse_long_print by assumption. reflexivity.
  - rewrite (strip_digit _ "-"%char) by reflexivity. now apply K.
  - rewrite strip_prefix_app. now apply K.
  - rewrite (strip_digit _ "-"%char) by reflexivity. now apply K1.
  - rewrite strip_prefix_app. now apply K1.
Qed.

Lemma angle_chars a neg n d : angle_written a neg n d -> forall c, In c (lit " ;()[],") -> ~ In c a.
Proof.
  intros H c Hc.
  assert (is_digit c = false) as Hdg by (cbn in Hc; repeat (destruct Hc as [<-|Hc]; [reflexivity|]); destruct Hc).
  assert (forall n, ~ In c (print_N n)) as Hp by (intros; now apply print_N_no).
  assert (forall s, forallb (fun x => negb (existsb (Ascii.eqb x) (lit " ;()[],"))) (lit s) = true -> ~ In c (lit s)) as Hl.
  { intros s Hs Hin. rewrite forallb_forall in Hs. apply Hs in Hin. apply negb_true_iff in Hin.
    assert (existsb (Ascii.eqb c) (lit " ;()[],") = true); [|congruence].
    apply existsb_exists. exists c. split; [exact Hc|apply Ascii.eqb_refl]. }
  destruct H; intros Hin; repeat (apply in_app_or in Hin; destruct Hin as [Hin|Hin]);
  try (revert Hin; apply Hp); try (revert Hin; apply Hl; reflexivity).
Qed.

Lemma bracket_arg p a : ~ In "("%char p -> ~ In "("%char a -> ~ In ")"%char a ->
  get_arg_in_brackets (p ++ lit "(" ++ a ++ lit ")") = Ok a.
Proof.
  intros Hp Ha Ha'. unfold get_arg_in_brackets.
  change (lit "(" ++ a ++ lit ")") with ("("%char :: a ++ [")"%char]).
  rewrite split_two; [|exact Hp|].
  - cbn [at_ nth_error bind]. destruct (split_head a ")" [] Ha') as [r Hr]. rewrite Hr. reflexivity.
  - intros H. apply in_app_or in H. destruct H as [H|[H|[]]]; [tauto|discriminate].
Qed.

Lemma angle_not_special a neg n d : angle_written a neg n d -> text_eqb a (lit "pi*-1") = false.
Proof.
  intros H. apply text_eqb_neq. intros E. apply parse_angle_written in H. subst a. vm_compute in H. discriminate.
Qed.

Definition rz_line (ws ws' a reg : text) (i : N) (tail : text) : text :=
  line ws (lit "rz(" ++ a ++ lit ")") (ws' ++ operand reg i) tail.

Lemma good_rz p a neg n d : angle_written a neg n d ->
  p = lit "rz(" \/ p = lit "crz(" -> good_name (p ++ a ++ lit ")").
Proof.
  intros H Hp. assert (Hc := angle_chars a neg n d H).
  assert (forall c, In c (lit " ;") -> ~ In c (p ++ a ++ lit ")")) as K.
  { intros c Hcc Hin. apply in_app_or in Hin. destruct Hin as [Hin|Hin].
    - destruct Hp as [-> | ->]; cbn in Hcc; destruct Hcc as [<-|[<-|[]]]; revert Hin; notin_lit.
    - apply in_app_or in Hin. destruct Hin as [Hin|Hin].
      + revert Hin. apply Hc. cbn in *. tauto.
      + cbn in *. destruct Hin as [<-|[]]. destruct Hcc as [Hcc|[Hcc|[]]]; discriminate. }
  split; [apply K; inlit|]. split; [apply K; inlit|].
  destruct Hp as [-> | ->]; (split; [split; [reflexivity|discriminate]|]); (split; [reflexivity|discriminate]).
Qed.

Lemma parse_rz dflt ws ws' a neg n d reg i tail :
  angle_written a neg n d -> spaces ws -> spaces ws' -> plain reg -> ~ In ";"%char tail -> (i < 2 ^ 63)%N ->
  parse_gate dflt (rz_line ws ws' a reg i tail) =
  Ok (PGate (if (d =? 1)%N then GBasic (i mod 2 ^ 32) GZ
             else GRZ (i mod 2 ^ 32) (mkFrac (Z.of_N n) (Z.of_N d) neg))).
Proof.
  intros Ha Hw Hw' Hp Ht Hi. unfold rz_line.
  rewrite parse_gate_line; [|assumption|eapply good_rz; eauto|now apply operands_no_semi|assumption].
  rewrite one_operand by assumption. unfold parse_qasm_gate. cbn [ln_instr ln_args].
  change (basic_of_name (lit "rz(" ++ a ++ lit ")")) with (@None basic). cbv iota.
  change (text_eqb (lit "rz(" ++ a ++ lit ")") (lit "cx")) with false.
  change (text_eqb (lit "rz(" ++ a ++ lit ")") (lit "cz")) with false. cbv iota.
  change (strip_prefix (lit "rz") (lit "rz(" ++ a ++ lit ")")) with (Some ("("%char :: a ++ lit ")")). cbv iota.
  change (lit "rz(" ++ a ++ lit ")") with (lit "rz" ++ lit "(" ++ a ++ lit ")").
  rewrite bracket_arg; [|notin_lit|apply (angle_chars a neg n d Ha); inlit|apply (angle_chars a neg n d Ha); inlit].
  cbn [bind]. rewrite (angle_not_special a neg n d Ha). rewrite (parse_angle_written a neg n d Ha). cbn [bind fr_den].
  replace (Z.of_N d =? 1)%Z with (d =? 1)%N by lia.
  cbn [at_ idx nth_error bind]. rewrite index_of_operand_ok by assumption. destruct (d =? 1)%N; reflexivity.
Qed.

Lemma parse_crz dflt ws ws1 ws2 k r1 r2 c t tail words ct pl :
  spaces ws -> spaces ws1 -> spaces ws2 -> plain r1 -> plain r2 -> ~ In ";"%char tail ->
  (k < 2 ^ 63)%N -> (c < 2 ^ 63)%N -> (t < 2 ^ 63)%N ->
  annotated tail words -> first_named names_cnot_type ControlFirst words ct ->
  first_named names_placement dflt words pl ->
  parse_gate dflt (line ws (lit "crz(pi/" ++ print_N k ++ lit ")") (two_ops ws1 ws2 r1 r2 c t) tail) =
  Ok (PGate (GControlled (c mod 2 ^ 32) (SRZ (t mod 2 ^ 32) (mkFrac 1 (Z.of_N k) false)) ct pl)).
Proof.
  intros Hw Hw1 Hw2 Hp1 Hp2 Ht Hk Hc Htt Ha Hct Hpl.
  assert (Haw := aw_unit k Hk).
  change (lit "crz(pi/" ++ print_N k ++ lit ")") with (lit "crz(" ++ (lit "pi/" ++ print_N k) ++ lit ")").
  rewrite parse_gate_line; [|assumption|eapply good_rz; eauto|now apply operands2_no_semi|assumption].
  unfold two_ops. rewrite two_operands by assumption. rewrite (annotated_annots _ _ Ha).
  unfold parse_qasm_gate. cbn [ln_instr ln_args ln_annot].
  assert (determine_cnot_type words = ct) as -> by (apply (first_some_named _ names_cnot_type); [exact cnot_type_from_iff|exact Hct]).
  assert (determine_placement dflt words = pl) as -> by (apply (first_some_named _ names_placement); [exact placement_from_iff|exact Hpl]).
  change (basic_of_name (lit "crz(" ++ (lit "pi/" ++ print_N k) ++ lit ")")) with (@None basic). cbv iota.
  change (text_eqb (lit "crz(" ++ (lit "pi/" ++ print_N k) ++ lit ")") (lit "cx")) with false.
  change (text_eqb (lit "crz(" ++ (lit "pi/" ++ print_N k) ++ lit ")") (lit "cz")) with false. cbv iota.
  change (strip_prefix (lit "rz") (lit "crz(" ++ (lit "pi/" ++ print_N k) ++ lit ")")) with (@None text).
  change (strip_prefix (lit "crz") (lit "crz(" ++ (lit "pi/" ++ print_N k) ++ lit ")"))
    with (Some (lit "(pi/" ++ print_N k ++ lit ")")). cbv iota.
  rewrite strip_prefix_app. cbn [idx nth_error bind]. rewrite !index_of_operand_ok by assumption. cbn [bind].
  change (lit "crz(" ++ (lit "pi/" ++ print_N k) ++ lit ")") with (lit "crz" ++ lit "(" ++ (lit "pi/" ++ print_N k) ++ lit ")").
  rewrite bracket_arg; [|notin_lit|apply (angle_chars _ _ _ _ Haw); inlit|apply (angle_chars _ _ _ _ Haw); inlit].
  cbn [bind]. rewrite (parse_angle_written _ _ _ _ Haw). reflexivity.
Qed.

(** ** The file reader *)
Definition nonblank (l : text) : bool := match l with [] => false | _ => true end.

(** Reading ahead splits the results at the first gate. *)
Lemma advance_spec dflt lines : forall q st, advance_gate dflt lines q = Ok st ->
  exists pre rs, filter nonblank lines = pre ++ filter nonblank (gf_lines st) /\
    Forall2 (fun l r => parse_gate dflt l = Ok r) pre rs /\
    gates_among rs = match gf_next st with Some g => [g] | None => [] end /\
    (gf_next st = None -> gf_lines st = []) /\
    length (gf_lines st) <= length lines /\
    (gf_next st <> None -> length (gf_lines st) < length lines) /\
    match q with
    | None => match registers_among rs with [] => gf_qreg st = None | [r] => gf_qreg st = Some r | _ => False end
    | Some r => registers_among rs = [] /\ gf_qreg st = Some r
    end.
Proof.
  induction lines as [|l lines IH]; intros q st H; cbn [advance_gate] in H.
  - injection H as <-. exists [], []. cbn. repeat split; auto.
    + congruence.
    + destruct q; cbn; auto.
  - destruct l as [|c l].
    + destruct (IH q st H) as (pre & rs & H1 & H2 & H3 & H4 & H5 & H6 & H7).
      exists pre, rs. cbn. repeat split; auto. intros Hn. specialize (H6 Hn). lia.
    + remember (c :: l) as cl eqn:Ecl.
      assert (nonblank cl = true) as Hnb by (subst; reflexivity).
      assert (match parse_gate dflt cl with
              | Ok (PGate g) => Ok (mkGF lines q (Some g))
              | Ok PIgnored => advance_gate dflt lines q
              | Ok (PQreg n k) => match q with None => advance_gate dflt lines (Some (n, k)) | Some _ => Throw RuntimeError end
              | Throw ParseException => Throw RuntimeError
              | Throw e => Throw e | UB u => UB u | Fuel => Fuel end = Ok st) as H'.
      { rewrite Ecl in H |- *. exact H. } clear H. rename H' into H. clear Ecl c l.
      destruct (parse_gate dflt cl) as [[g| |n k]|e|u|] eqn:Ep.
      * injection H as <-. exists [cl], [PGate g]. cbn. rewrite Hnb. cbn. repeat split; auto; try lia; try discriminate.
        destruct q; cbn; auto.
      * destruct (IH q st H) as (pre & rs & H1 & H2 & H3 & H4 & H5 & H6 & H7).
        exists (cl :: pre), (PIgnored :: rs). cbn. rewrite Hnb, H1. repeat split; auto.
        intros Hn. specialize (H6 Hn). lia.
      * destruct q as [r|]; [discriminate|].
        destruct (IH (Some (n, k)) st H) as (pre & rs & H1 & H2 & H3 & H4 & H5 & H6 & H7 & H8).
        exists (cl :: pre), (PQreg n k :: rs). cbn. rewrite Hnb, H1, H7. repeat split; auto.
        intros Hn. specialize (H6 Hn). lia.
      * destruct e; discriminate.
      * discriminate.
      * discriminate.
Qed.

Lemma gates_among_app a b : gates_among (a ++ b) = gates_among a ++ gates_among b.
Proof. induction a as [|[g| |n k] a IH]; cbn; [reflexivity|f_equal; exact IH|exact IH|exact IH]. Qed.
Lemma registers_among_app a b : registers_among (a ++ b) = registers_among a ++ registers_among b.
Proof. induction a as [|[g| |n k] a IH]; cbn; [reflexivity|exact IH|exact IH|f_equal; exact IH]. Qed.

(** The state after opening, or after any call, and the results still ahead. *)
Lemma drain_spec dflt fuel : forall st gs q r, gf_qreg st = Some r ->
  (gf_next st = None -> gf_lines st = []) ->
  drain_file fuel dflt st = Ok (gs, q) ->
  exists rs, Forall2 (fun l r => parse_gate dflt l = Ok r) (filter nonblank (gf_lines st)) rs /\
    gs = match gf_next st with Some g => [g] | None => [] end ++ gates_among rs /\
    registers_among rs = [] /\ q = Some r.
Proof.
  induction fuel as [|f IH]; intros st gs q r Hq Hn H; cbn in H; [discriminate|].
  destruct (gf_next st) as [g|] eqn:En.
  - unfold file_next_gate in H. rewrite En in H. cbn [value_ bind] in H.
    destruct (advance_gate dflt (gf_lines st) (gf_qreg st)) as [st'| | |] eqn:Ea; try discriminate.
    cbn [bind] in H.
    destruct (drain_file f dflt st') as [[gs' q']| | |] eqn:Ed; try discriminate. cbn [bind] in H.
    injection H as <- <-.
    destruct (advance_spec _ _ _ _ Ea) as (pre & rs & H1 & H2 & H3 & H4 & _ & _ & H7). rewrite Hq in H7. destruct H7 as [H7 H8].
    destruct (IH st' gs' q' r H8 H4 Ed) as (rs' & H9 & H10 & H11 & H12).
    exists (rs ++ rs'). rewrite H1. repeat split.
    + now apply Forall2_app.
    + rewrite gates_among_app, H3, H10. reflexivity.
    + rewrite registers_among_app, H7, H11. reflexivity.
    + exact H12.
  - injection H as <- <-. rewrite (Hn eq_refl). exists []. repeat split; auto; constructor.
Qed.

Lemma advance_total dflt lines : forall rs q,
  Forall2 (fun l r => parse_gate dflt l = Ok r) (filter nonblank lines) rs ->
  match q with None => length (registers_among rs) <= 1 | Some _ => registers_among rs = [] end ->
  exists st, advance_gate dflt lines q = Ok st.
Proof.
  induction lines as [|l lines IH]; intros rs q HF Hr; cbn [advance_gate]; [eauto|].
  destruct l as [|c l]; [now apply (IH rs)|]. cbn in HF. inversion HF as [|? r ? rs' Hp HF']; subst.
  rewrite Hp. destruct r as [g| |n k].
  - eauto.
  - apply (IH rs'); [assumption|exact Hr].
  - destruct q as [x|]; [discriminate|]. apply (IH rs'); [assumption|].
    cbn in Hr. destruct (registers_among rs'); [reflexivity|cbn in Hr; lia].
Qed.

Lemma Forall2_app_inv {A B} (R : A -> B -> Prop) a b rs : Forall2 R (a ++ b) rs ->
  exists r1 r2, rs = r1 ++ r2 /\ Forall2 R a r1 /\ Forall2 R b r2.
Proof. intros H. apply Forall2_app_inv_l in H. destruct H as (r1 & r2 & H1 & H2 & ->). eauto. Qed.
Lemma Forall2_fun {A B} (R : A -> B -> Prop) a r1 r2 :
  (forall x y z, R x y -> R x z -> y = z) -> Forall2 R a r1 -> Forall2 R a r2 -> r1 = r2.
Proof.
  intros Hf H1. revert r2. induction H1 as [|x y a r1 Hx _ IH]; intros r2 H2; inversion H2; subst; [reflexivity|].
  f_equal; eauto.
Qed.

Lemma Forall2_impl {A B} (R S : A -> B -> Prop) a b : (forall x y, R x y -> S x y) -> Forall2 R a b -> Forall2 S a b.
Proof. intros H. induction 1; constructor; auto. Qed.
Lemma Forall2_In_l {A B} (R : A -> B -> Prop) x a b : Forall2 R a b -> In x a -> exists y, R x y.
Proof. induction 1 as [|u v a b Hu _ IH]; intros []; subst; eauto. Qed.

Lemma drain_total dflt fuel : forall st rs r, gf_qreg st = Some r ->
  (gf_next st = None -> gf_lines st = []) ->
  Forall2 (fun l r => parse_gate dflt l = Ok r) (filter nonblank (gf_lines st)) rs ->
  registers_among rs = [] -> S (length (gf_lines st)) < fuel ->
  exists gs, drain_file fuel dflt st = Ok (gs, Some r).
Proof.
  induction fuel as [|f IH]; intros st rs r Hq Hn HF Hr Hl; [lia|]. cbn [drain_file].
  destruct (gf_next st) as [g|] eqn:En; [|rewrite Hq; eauto].
  unfold file_next_gate. rewrite En. cbn [value_ bind].
  destruct (advance_total dflt (gf_lines st) rs (gf_qreg st) HF) as [st' Ha]; [rewrite Hq; exact Hr|].
  rewrite Ha. cbn [bind].
  destruct (advance_spec _ _ _ _ Ha) as (pre & rs1 & H1 & H2 & H3 & H4 & H5 & H6 & H7). rewrite Hq in H7. destruct H7 as [H7 H8].
  rewrite H1 in HF. apply Forall2_app_inv in HF. destruct HF as (r1 & r2 & -> & HF1 & HF2).
  rewrite registers_among_app in Hr. apply app_eq_nil in Hr. destruct Hr as [_ Hr].
  destruct (gf_next st') as [g'|] eqn:En'.
  - destruct (IH st' r2 r H8) as [gs Hg]; auto; try congruence.
    { specialize (H6 ltac:(congruence)). lia. }
    rewrite Hg. cbn [bind]. eauto.
  - destruct f as [|f]; [lia|]. cbn [drain_file]. rewrite En'. cbn [bind]. rewrite H8. eauto.
Qed.

(** Complete characterisation of successful reads. *)
Theorem read_gate_file_iff dflt content gs q :
  read_gate_file dflt content = Ok (gs, q) <->
  exists rs reg pre post,
    Forall2 (fun l r => parse_gate dflt l = Ok r)
            (filter nonblank (split_on content newline)) rs /\
    rs = pre ++ PQreg (fst reg) (snd reg) :: post /\
    gates_among pre = [] /\ registers_among pre = [] /\ registers_among post = [] /\
    gs = gates_among post /\ q = Some reg.
Proof.
  unfold read_gate_file, open_gate_file. set (lines := split_on content (ascii_of_nat 10)).
  change (split_on content newline) with lines.
  split.
  - intros H. destruct (advance_gate dflt lines None) as [st| | |] eqn:Ea; try discriminate. cbn [bind] in H.
    destruct (gf_qreg st) as [reg|] eqn:Eq; [|discriminate]. cbn [bind] in H.
    destruct (advance_spec _ _ _ _ Ea) as (pre & rs & H1 & H2 & H3 & H4 & H5 & H6 & H7).
    destruct (drain_spec _ _ _ _ _ _ Eq H4 H) as (rs' & H8 & H9 & H10 & H11).
    destruct (registers_among rs) as [|r0 [|? ?]] eqn:Er; [congruence| |destruct H7].
    assert (r0 = reg) as -> by congruence.
    assert (forall rs gl, registers_among rs = [reg] -> gates_among rs = gl ->
        (exists a b, rs = a ++ PQreg (fst reg) (snd reg) :: b /\ registers_among a = [] /\ registers_among b = [] /\ gates_among a ++ gates_among b = gl)) as K.
    { clear. intros rs. induction rs as [|x rs IH]; intros gl Hr Hg; [discriminate|]. destruct x as [g| |n k].
      - destruct (IH (gates_among rs) Hr eq_refl) as (a & b & -> & Ha & Hb & Hg'). exists (PGate g :: a), b. cbn. repeat split; auto.
        cbn in Hg. rewrite Hg'. exact Hg.
      - destruct (IH gl Hr Hg) as (a & b & -> & Ha & Hb & Hg'). exists (PIgnored :: a), b. repeat split; auto.
      - cbn in Hr. injection Hr as <- Hr. exists [], rs. cbn. repeat split; auto. }
    destruct (K rs _ Er H3) as (a & b & Hrs & Ha & Hb & Hg).
    (* the register line comes before the gate: the read-ahead stops at the gate *)
    assert (gates_among a = []) as Hga.
    { clear K. revert Ea H2 Hrs Eq. intros Ea. assert (Ea' := Ea). revert Ea'. clear Ea.
      generalize H1. clear -H3 H4. revert st H3 H4. intros st.
      intros H3 H4 H1 Ea HF Hrs Eq. subst rs.
      destruct (gf_next st) as [g|] eqn:En.
      2:{ rewrite gates_among_app in H3. apply app_eq_nil in H3. tauto. }
      destruct a as [|a0 a]; [reflexivity|].
      (* the last result read is the gate *)
      assert (forall lines q st, advance_gate dflt lines q = Ok st -> gf_next st = Some g ->
        forall pre rs, filter nonblank lines = pre ++ filter nonblank (gf_lines st) ->
        Forall2 (fun l r => parse_gate dflt l = Ok r) pre rs -> gates_among rs = [g] ->
        exists rs0, rs = rs0 ++ [PGate g] /\ gates_among rs0 = []) as L.
      { clear. intros lines. induction lines as [|l lines IH]; intros q st Ha En pre rs H1 HF Hg; cbn [advance_gate] in Ha.
        - injection Ha as <-. discriminate.
        - destruct l as [|c l]; [now apply (IH q st Ha En pre rs)|].
          destruct pre as [|p pre].
          { inversion HF; subst. discriminate. }
          inversion HF as [|? r ? rs' Hp HF']; subst.
          destruct (parse_gate dflt (c :: l)) as [[g0| |n k]|e|u|] eqn:Ep; try discriminate; try (destruct e; discriminate).
          + injection Ha as <-. cbn in En. injection En as ->. cbn in H1. injection H1 as <- H1.
            assert (pre = []) as ->.
            { apply (f_equal (@length _)) in H1. rewrite app_length in H1. destruct pre; [reflexivity|cbn in H1; lia]. }
            inversion HF'; subst. assert (r = PGate g) as -> by congruence. exists []. split; reflexivity.
          + cbn in H1. injection H1 as <- H1. assert (r = PIgnored) as -> by congruence.
            destruct (IH q st Ha En pre rs' H1 HF' Hg) as (rs0 & -> & Hg0). exists (PIgnored :: rs0). split; [reflexivity|exact Hg0].
          + destruct q; [discriminate|]. cbn in H1. injection H1 as <- H1. assert (r = PQreg n k) as -> by congruence.
            destruct (IH _ st Ha En pre rs' H1 HF' Hg) as (rs0 & -> & Hg0). exists (PQreg n k :: rs0). split; [reflexivity|exact Hg0]. }
      destruct (L lines None st Ea En _ _ H1 HF H3) as (rs0 & Hr0 & Hg0).
      destruct b as [|b0 b] using rev_ind.
      + apply (app_inj_tail (a0 :: a) rs0) in Hr0. destruct Hr0 as [_ Hr0]. discriminate.
      + clear IHb. rewrite app_comm_cons, app_assoc in Hr0. apply app_inj_tail in Hr0. destruct Hr0 as [<- _].
        rewrite gates_among_app in Hg0. apply app_eq_nil in Hg0. tauto. }
    exists (rs ++ rs'), reg, a, (b ++ rs'). subst rs. repeat split.
    + rewrite H1. now apply Forall2_app.
    + now rewrite <- app_assoc.
    + exact Hga.
    + exact Ha.
    + rewrite registers_among_app, Hb, H10. reflexivity.
    + rewrite gates_among_app. rewrite Hga in Hg. cbn in Hg. rewrite Hg. exact H9.
    + exact H11.
  - intros (rs & reg & pre & post & HF & Hrs & Hgp & Hrp & Hrq & -> & ->).
    destruct (advance_total dflt lines rs None HF) as [st Ha].
    { subst rs. rewrite registers_among_app. cbn. rewrite Hrp, Hrq. cbn. lia. }
    rewrite Ha. cbn [bind].
    destruct (advance_spec _ _ _ _ Ha) as (p1 & rs1 & H1 & H2 & H3 & H4 & H5 & H6 & H7).
    assert (HF0 := HF). rewrite H1 in HF0. apply Forall2_app_inv in HF0. destruct HF0 as (r1 & r2 & Hr & HFa & HFb).
    assert (r1 = rs1) as -> by (eapply Forall2_fun; [|exact HFa|exact H2]; cbn; congruence).
    (* the register has been seen *)
    assert (gf_qreg st = Some reg /\ registers_among r2 = [] /\
            match gf_next st with Some g => [g] | None => [] end ++ gates_among r2 = gates_among post) as (Hq & Hr2 & Hgs).
    { assert (gates_among rs = gates_among post) as Hall.
      { subst rs. rewrite gates_among_app, Hgp. reflexivity. }
      assert (registers_among rs = [reg]) as Hreg.
      { subst rs. rewrite registers_among_app, Hrp. cbn. rewrite Hrq. now destruct reg. }
      rewrite Hr in Hall, Hreg. rewrite gates_among_app, H3 in Hall. rewrite registers_among_app in Hreg.
      destruct (registers_among rs1) as [|r0 l] eqn:Er1.
      - exfalso.
        destruct (gf_next st) as [g|] eqn:En.
        + (* a gate before the register *)
          assert (In (PGate g) rs1) as Hin.
          { clear -H3. induction rs1 as [|[g0| |n k] rs1 IH]; cbn in H3; try discriminate.
            - injection H3 as -> _. left; reflexivity.
            - right; auto.
            - right; auto. }
          rewrite Hr in Hrs. clear -Hrs Hgp Hin Er1.
          revert pre Hrs Hgp. induction rs1 as [|x rs1 IH]; intros pre Hrs Hgp; [destruct Hin|].
          destruct pre as [|p pre]; cbn in Hrs; injection Hrs as -> Hrs.
          * cbn in Er1. discriminate.
          * destruct p as [g0| |n k]; cbn in Hgp; try discriminate.
            destruct Hin as [Hin|Hin]; [discriminate|]. apply (IH Er1 Hin pre Hrs Hgp).
        + specialize (H4 eq_refl). rewrite H4 in HFb. cbn in HFb. inversion HFb; subst r2. cbn in Hreg. discriminate.
      - cbn in Hreg. injection Hreg as -> Hreg. apply app_eq_nil in Hreg. destruct Hreg as [-> Hreg].
        split; [exact H7|split; [exact Hreg|exact Hall]]. }
    rewrite Hq. cbn [bind].
    destruct (drain_total dflt (S (S (length (gf_lines st)))) st r2 reg Hq H4 HFb Hr2 ltac:(lia)) as [gs Hd].
    rewrite Hd. f_equal. f_equal.
    destruct (drain_spec _ _ _ _ _ _ Hq H4 Hd) as (rs' & H8 & H9 & H10 & H11).
    assert (rs' = r2) as -> by (eapply Forall2_fun; [|exact H8|exact HFb]; cbn; congruence).
    congruence.
Qed.

(** ** Rotations *)
Section Rot.
Variable gridsynth : text -> outcome text.
Variable use : bool.
Notation dec := (decompose gridsynth use).

Lemma gate_from_name_basic c q g : gate_from_name c q = Ok g -> is_decomposed g = true.
Proof.
  unfold gate_from_name. intros H.
  repeat match type of H with (if ?c then _ else _) = _ => destruct c; [injection H as <-; reflexivity|] end. discriminate.
Qed.
Lemma mapM_Forall {A B} (f : A -> outcome B) (P : B -> Prop) l r :
  (forall x y, f x = Ok y -> P y) -> mapM f l = Ok r -> Forall P r.
Proof.
  intros Hf. revert r. induction l as [|x l IH]; intros r H; cbn in H; [injection H as <-; constructor|].
  destruct (f x) as [y| | |] eqn:E; try discriminate. cbn in H.
  destruct (mapM f l) as [ys| | |] eqn:E'; try discriminate. injection H as <-. constructor; eauto.
Qed.
Lemma approximate_basic q f gs : approximate_RZ gridsynth use q f = Ok gs -> Forall (fun g => is_decomposed g = true) gs.
Proof.
  unfold approximate_RZ, approximate_gridsynth. destruct use; [|discriminate]. intros H.
  destruct (gridsynth (angle_text f)) as [names| | |]; try discriminate. cbn [bind] in H.
  destruct (mapM _ _) as [out| | |] eqn:E; try discriminate. injection H as <-.
  apply Forall_rev. eapply mapM_Forall; [|exact E]. intros x y. apply gate_from_name_basic.
Qed.
Lemma decompose_basic g gs : dec g = Ok gs -> Forall (fun g => is_decomposed g = true) gs.
Proof.
  destruct g as [t b|t f|c tg ct pl|r t]; cbn; intros H.
  - injection H as <-. now repeat constructor.
  - now apply approximate_basic in H.
  - destruct tg as [t b|t f]; [injection H as <-; now repeat constructor|].
    unfold decompose_CRZ in H.
    destruct (int64 (fr_den f * 2)) as [d2| | |]; try discriminate. cbn [bind] in H.
    destruct (approximate_RZ _ _ c _) as [a| | |] eqn:Ea; try discriminate. cbn [bind] in H.
    destruct (approximate_RZ _ _ t _) as [b| | |] eqn:Eb; try discriminate. cbn [bind] in H.
    destruct (int64 (- fr_num f)) as [n'| | |]; try discriminate. cbn [bind] in H.
    destruct (approximate_RZ _ _ t (mkFrac n' _ _)) as [e| | |] eqn:Ee; try discriminate. cbn [bind] in H.
    injection H as <-. apply approximate_basic in Ea, Eb, Ee.
    repeat apply Forall_app_2 || idtac.
    apply Forall_app; split; [exact Ea|]. apply Forall_app; split; [exact Eb|]. constructor; [reflexivity|].
    apply Forall_app; split; [exact Ee|]. now repeat constructor.
  - injection H as <-. now repeat constructor.
Qed.
Lemma decompose_fixed g : is_decomposed g = true -> dec g = Ok [g].
Proof. destruct g as [t b|t f|c [t b|t f] ct pl|r t]; cbn; intros H; congruence. Qed.

Definition rot_spec (input : list gate) (out : list gate) : Prop :=
  exists parts, Forall2 (fun g p => dec g = Ok p /\ p <> []) input parts /\ out = concat parts.

Lemma rot_drain_queue : forall queue fuel input out,
  rot_drain gridsynth use fuel queue input = Ok out ->
  exists fuel' out', rot_drain gridsynth use fuel' [] input = Ok out' /\ out = queue ++ out'.
Proof.
  induction queue as [|g q IH]; intros fuel input out H; [eauto|].
  destruct fuel as [|f]; [discriminate|]. cbn in H.
  destruct (rot_drain _ _ f q input) as [gs| | |] eqn:E; try discriminate. cbn in H. injection H as <-.
  apply IH in E. destruct E as (f' & o' & E & ->). eauto.
Qed.
Lemma rot_drain_sound : forall input fuel out,
  rot_drain gridsynth use fuel [] input = Ok out -> rot_spec input out.
Proof.
  induction input as [|g r IH]; intros fuel out H; (destruct fuel as [|f]; [discriminate|]); cbn [rot_drain rot_has_next] in H.
  - injection H as <-. exists []. split; [constructor|reflexivity].
  - cbn [rot_next] in H. destruct (is_decomposed g) eqn:Ed.
    + cbn [bind] in H. destruct (rot_drain _ _ f [] r) as [gs| | |] eqn:E; try discriminate. injection H as <-.
      destruct (IH _ _ E) as (parts & HF & ->). exists ([g] :: parts). split; [|reflexivity].
      constructor; [|exact HF]. split; [now apply decompose_fixed|discriminate].
    + destruct (dec g) as [[|h t]| | |] eqn:E; try discriminate. cbn [bind] in H.
      destruct (rot_drain _ _ f t r) as [gs| | |] eqn:E'; try discriminate. injection H as <-.
      apply rot_drain_queue in E'. destruct E' as (f' & o' & E' & ->).
      destruct (IH _ _ E') as (parts & HF & ->). exists ((h :: t) :: parts). split; [|reflexivity].
      constructor; [|exact HF]. split; [exact E|discriminate].
Qed.
Lemma rot_drain_queue_complete : forall queue fuel input out,
  rot_drain gridsynth use fuel [] input = Ok out ->
  rot_drain gridsynth use (length queue + fuel) queue input = Ok (queue ++ out).
Proof.
  induction queue as [|g q IH]; intros fuel input out H; [exact H|]. cbn. rewrite (IH _ _ _ H). reflexivity.
Qed.
Lemma rot_drain_complete : forall input out, rot_spec input out ->
  exists fuel, rot_drain gridsynth use fuel [] input = Ok out.
Proof.
  intros input out (parts & HF & ->). induction HF as [|g p input parts [Hd Hp] _ (f & IH)]; [exists 1; reflexivity|].
  destruct p as [|h t]; [congruence|].
  exists (S (length t + f)). cbn [rot_drain rot_has_next rot_next].
  destruct (is_decomposed g) eqn:E.
  - rewrite decompose_fixed in Hd by exact E. injection Hd as <- <-. cbn [bind length Nat.add]. rewrite IH. reflexivity.
  - rewrite Hd. cbn [bind]. rewrite (rot_drain_queue_complete t f input _ IH). reflexivity.
Qed.
Lemma rot_spec_basic input out : rot_spec input out -> Forall (fun g => is_decomposed g = true) out.
Proof.
  intros (parts & HF & ->). induction HF as [|g p input parts [Hd _] _ IH]; [constructor|].
  cbn. apply Forall_app. split; [now apply decompose_basic in Hd|exact IH].
Qed.

(** ** Phases *)
Lemma same_state_trans a b c : same_state a b -> same_state b c -> same_state a c.
Proof.
  intros [H1 [n Hn]] [H2 [m Hm]]. split; [intros k; now rewrite H1|].
  exists (n + m)%Z. rewrite Hn, Hm. replace (2 * (n + m))%Z with (2 * n + 2 * m)%Z by lia.
  rewrite inject_Z_plus. ring.
Qed.
Lemma same_state_refl a : same_state a a.
Proof. split; [reflexivity|]. exists 0%Z. change (inject_Z (2 * 0)) with (0#1)%Q. ring. Qed.

Lemma act_all_app a b s : act_all (a ++ b) s = match act_all a s with Some s' => act_all b s' | None => None end.
Proof. revert s. induction a as [|g a IH]; intros s; cbn; [reflexivity|]. destruct (act g s); [apply IH|reflexivity]. Qed.

Lemma act_sq_same tg a b : same_state a b ->
  match act_sq tg a, act_sq tg b with Some x, Some y => same_state x y | None, None => True | _, _ => False end.
Proof.
  intros [Hb [n Hn]]. destruct tg as [q bs|q f]; cbn [act_sq].
  - destruct bs; cbn [act_basic]; auto;
      try (rewrite (Hb q); destruct (bits b q));
      (split; [intros k; cbn; unfold flip; rewrite ?(Hb k); try reflexivity; destruct (k =? q)%N; try reflexivity; now rewrite Hb
              | exists n; cbn [phase add_phase]; rewrite Hn; ring]).
  - rewrite (Hb q). destruct (bits b q); (split; [exact Hb|exists n; cbn [phase add_phase]; rewrite Hn; ring]).
Qed.
Lemma act_same g a b : same_state a b ->
  match act g a, act g b with Some x, Some y => same_state x y | None, None => True | _, _ => False end.
Proof.
  intros H. destruct g as [q bs|q f|c tg ct pl|r t]; cbn [act]; try now apply act_sq_same; auto.
  - destruct H as [Hb Hn]. rewrite (Hb c). destruct (bits b c); [apply act_sq_same|]; (split; [exact Hb|exact Hn]).
  - exact I.
Qed.
Lemma act_all_same l : forall a b, same_state a b ->
  match act_all l a, act_all l b with Some x, Some y => same_state x y | None, None => True | _, _ => False end.
Proof.
  induction l as [|g l IH]; intros a b H; cbn; [exact H|].
  assert (Hg := act_same g a b H). destruct (act g a), (act g b); try (destruct Hg; fail); auto. now apply IH.
Qed.

Lemma implements_app a b g1 s s1 :
  implements a g1 -> act g1 s = Some s1 ->
  forall r, same_result (act_all b s1) r -> same_result (act_all (a ++ b) s) r.
Proof.
  intros Ha Hg r Hr. rewrite act_all_app. specialize (Ha s). rewrite Hg in Ha.
  destruct (act_all a s) as [s'|]; [|destruct Ha]. cbn in Ha.
  assert (H := act_all_same b s' s1 Ha).
  destruct (act_all b s') as [x|], (act_all b s1) as [y|]; try (destruct H; fail); auto.
  destruct r as [z|]; [|destruct Hr]. cbn in *. eapply same_state_trans; eauto.
Qed.

Lemma Qhalf n d : (inject_Z n / inject_Z (d * 2) == (inject_Z n / inject_Z d) * (1#2))%Q.
Proof.
  rewrite inject_Z_mult. unfold Qdiv. rewrite Qinv_mult_distr. change (/ inject_Z 2)%Q with (1#2)%Q. ring.
Qed.
Lemma Qneg_half n d : (inject_Z (- n) / inject_Z (d * 2) == - ((inject_Z n / inject_Z d) * (1#2)))%Q.
Proof.
  rewrite inject_Z_opp, <- Qhalf. unfold Qdiv. ring.
Qed.
Lemma int64_ok z v : int64 z = Ok v -> v = z.
Proof. unfold int64. destruct (_ && _); congruence. Qed.

(** The expansion ignores the sign flag and otherwise has the right phase. *)
Lemma crz_phase c t f ct pl gs :
  c <> t ->
  (forall q m p, m = fr_num f \/ m = (- fr_num f)%Z ->
     approximate_RZ gridsynth use q (mkFrac m (fr_den f * 2) false) = Ok p ->
     implements p (GRZ q (mkFrac m (fr_den f * 2) false))) ->
  decompose_CRZ gridsynth use c t f ct pl = Ok gs ->
  implements gs (GControlled c (SRZ t (mkFrac (fr_num f) (fr_den f) false)) ct pl).
Proof.
  intros Hne Hex H s. unfold decompose_CRZ in H.
  destruct (int64 (fr_den f * 2)) as [d2| | |] eqn:E2; try discriminate. apply int64_ok in E2. cbn [bind] in H.
  destruct (approximate_RZ _ _ c _) as [a| | |] eqn:Ea; try discriminate. cbn [bind] in H.
  destruct (approximate_RZ _ _ t _) as [b| | |] eqn:Eb; try discriminate. cbn [bind] in H.
  destruct (int64 (- fr_num f)) as [n'| | |] eqn:En; try discriminate. apply int64_ok in En. cbn [bind] in H.
  destruct (approximate_RZ _ _ t (mkFrac n' _ _)) as [e| | |] eqn:Ee; try discriminate. cbn [bind] in H.
  injection H as <-. subst d2 n'. apply Hex in Ea; [|left; reflexivity]. apply Hex in Eb; [|left; reflexivity]. apply Hex in Ee; [|right; reflexivity].
  set (F := mkFrac (fr_num f) (fr_den f * 2) false) in *.
  set (F' := mkFrac (- fr_num f) (fr_den f * 2) false) in *.
  assert (frac_value F == (inject_Z (fr_num f) / inject_Z (fr_den f)) * (1#2))%Q as HF by (cbn; apply Qhalf).
  assert (frac_value F' == - ((inject_Z (fr_num f) / inject_Z (fr_den f)) * (1#2)))%Q as HF' by (cbn; apply Qneg_half).
  set (w := (inject_Z (fr_num f) / inject_Z (fr_den f))%Q) in *.
  set (cx := GControlled c (SBasic t GX) ct pl).
  eapply (implements_app a _ (GRZ c F)); [exact Ea|reflexivity|].
  eapply (implements_app b _ (GRZ t F)); [exact Eb|reflexivity|].
  change (act_sq (SRZ c F) s) with (Some (if bits s c then add_phase (frac_value F) s else s)).
  set (s1 := if bits s c then add_phase (frac_value F) s else s).
  assert (bits s1 = bits s) as Hb1 by (unfold s1; destruct (bits s c); reflexivity).
  rewrite Hb1.
  set (s2 := if bits s t then add_phase (frac_value F) s1 else s1).
  assert (bits s2 = bits s) as Hb2 by (unfold s2; destruct (bits s t); cbn; assumption).
  cbn [app act_all]. unfold cx at 1. cbn [act act_sq act_basic]. rewrite Hb2.
  assert (phase s2 == phase s + (if bits s c then w * (1#2) else 0) + (if bits s t then w * (1#2) else 0))%Q as Hph.
  { unfold s2, s1. destruct (bits s c), (bits s t); cbn [add_phase phase]; rewrite ?HF; ring. }
  assert (flip t (bits s) c = bits s c) as Hfc by (unfold flip; destruct (c =? t)%N eqn:E; [apply N.eqb_eq in E; contradiction|reflexivity]).
  assert (forall k, flip t (flip t (bits s)) k = bits s k) as Hff.
  { intros k. unfold flip. destruct (k =? t)%N; [apply negb_involutive|reflexivity]. }
  assert (flip t (bits s) t = negb (bits s t)) as Hft by (unfold flip; now rewrite N.eqb_refl).
  assert (exists z : Q, (z == 0)%Q /\ z = inject_Z (2 * 0)) as (z0 & Hz0 & Ez0) by (eexists; split; [|reflexivity]; reflexivity).
  destruct (bits s c) eqn:Bc.
  - eapply (implements_app e [cx] (GRZ t F') (mkBS (flip t (bits s)) (phase s2))); [exact Ee|reflexivity|].
    cbn [act act_sq bits fr_num fr_den fr_neg]. rewrite Hft.
    unfold cx. destruct (bits s t) eqn:Bt; cbn [negb act_all act act_sq act_basic bits add_phase phase]; rewrite Hfc; cbn [same_result].
    + split; [intros k; cbn; apply Hff|]. exists 0%Z. rewrite <- Ez0, Hz0. cbn [phase frac_value fr_num fr_den fr_neg].
      rewrite Hph. fold w. cbn [add_phase phase]. ring.
    + split; [intros k; cbn; apply Hff|]. exists 0%Z. rewrite <- Ez0, Hz0. cbn [phase]. rewrite Hph, HF'. ring.
  - eapply (implements_app e [cx] (GRZ t F') s2); [exact Ee|reflexivity|].
    cbn [act act_sq bits]. rewrite Hb2. unfold cx.
    destruct (bits s t) eqn:Bt; cbn [act_all act act_sq act_basic bits add_phase phase]; rewrite Hb2, Bc; cbn [same_result].
    + split; [intros k; change (bits s2 k = bits s k); now rewrite Hb2|]. exists 0%Z. rewrite <- Ez0, Hz0. cbn [add_phase phase]. rewrite Hph, HF'. ring.
    + split; [intros k; now rewrite Hb2|]. exists 0%Z. rewrite <- Ez0, Hz0. rewrite Hph. ring.
Qed.
End Rot.

(** ** What a written rotation means *)
Definition rz_action (i : N) (a : Q) (s : bstate) : bstate := if bits s i then add_phase a s else s.

Lemma rz_parsed_meaning dflt ws ws' a neg n d reg i tail :
  angle_written a neg n d -> spaces ws -> spaces ws' -> plain reg -> ~ In ";"%char tail -> (i < 2 ^ 32)%N ->
  (d <> 1 \/ N.odd n = true)%N ->
  exists g, parse_gate dflt (rz_line ws ws' a reg i tail) = Ok (PGate g) /\
            forall s, same_result (act g s) (Some (rz_action i (written_angle neg n d) s)).
Proof.
  intros Ha Hw Hw' Hp Ht Hi Hd.
  assert ((i < 2 ^ 63)%N) as Hi' by (change (2 ^ 63)%N with (2 ^ 32 * 2 ^ 31)%N; nia).
  eexists. split; [now apply (parse_rz dflt ws ws' a neg n d reg i tail)|].
  rewrite (N.mod_small i) by exact Hi. intros s.
  destruct (d =? 1)%N eqn:E.
  - apply N.eqb_eq in E. subst d. destruct Hd as [Hd|Hd]; [congruence|].
    cbn [act act_sq act_basic]. unfold rz_action. destruct (bits s i); [|apply same_state_refl].
    split; [reflexivity|]. apply N.odd_spec in Hd. destruct Hd as [m Hm].
    exists (if neg then 1 + Z.of_N m else - Z.of_N m)%Z. cbn [phase add_phase]. unfold written_angle.
    replace (Z.of_N n) with (2 * Z.of_N m + 1)%Z by lia.
    assert (inject_Z (2 * Z.of_N m + 1) / inject_Z (Z.of_N 1) == 2 * inject_Z (Z.of_N m) + 1)%Q as Hq.
    { rewrite inject_Z_plus, inject_Z_mult. change (inject_Z (Z.of_N 1)) with 1%Q. change (inject_Z 2) with 2%Q. change (inject_Z 1) with 1%Q. field. }
    cbv zeta. destruct neg; rewrite Hq, inject_Z_mult, ?inject_Z_plus, ?inject_Z_opp; change (inject_Z 2) with 2%Q; change (inject_Z 1) with 1%Q; ring.
  - cbn [act act_sq]. unfold rz_action. destruct (bits s i); [|apply same_state_refl].
    split; [reflexivity|]. exists 0%Z. change (inject_Z (2 * 0)) with 0%Q. unfold frac_value, written_angle. cbn [add_phase phase fr_num fr_den fr_neg]. ring.
Qed.

Lemma half_not_int (m k : Z) : ~ (1 == inject_Z (2 * m) + inject_Z (2 * k))%Q.
Proof.
  intros H. rewrite <- inject_Z_plus in H. change 1%Q with (inject_Z 1) in H.
  unfold Qeq in H. cbn [Qnum Qden inject_Z] in H. lia.
Qed.

Lemma rz_even_wrong dflt ws ws' a neg n reg i tail :
  angle_written a neg n 1 -> N.even n = true ->
  spaces ws -> spaces ws' -> plain reg -> ~ In ";"%char tail -> (i < 2 ^ 32)%N ->
  exists g, parse_gate dflt (rz_line ws ws' a reg i tail) = Ok (PGate g) /\
            forall s, bits s i = true -> ~ same_result (act g s) (Some (rz_action i (written_angle neg n 1) s)).
Proof.
  intros Ha He Hw Hw' Hp Ht Hi.
  assert ((i < 2 ^ 63)%N) as Hi' by (change (2 ^ 63)%N with (2 ^ 32 * 2 ^ 31)%N; nia).
  eexists. split; [now apply (parse_rz dflt ws ws' a neg n 1 reg i tail)|].
  rewrite (N.mod_small i) by exact Hi. cbn [N.eqb Pos.eqb]. intros s Hs.
  cbn [act act_sq act_basic]. unfold rz_action. rewrite Hs. intros [_ [k Hk]]. cbn [phase add_phase] in Hk.
  apply N.even_spec in He. destruct He as [m Hm].
  assert (written_angle neg n 1 == inject_Z (2 * (if neg then - Z.of_N m else Z.of_N m)))%Q as E.
  { unfold written_angle. replace (Z.of_N n) with (2 * Z.of_N m)%Z by lia.
    assert (inject_Z (2 * Z.of_N m) / inject_Z (Z.of_N 1) == inject_Z (2 * Z.of_N m))%Q as Hq.
    { change (inject_Z (Z.of_N 1)) with 1%Q. field. }
    cbv zeta. destruct neg; rewrite Hq, ?inject_Z_mult, ?inject_Z_opp; ring. }
  rewrite E in Hk. eapply half_not_int.
  assert (1 == (phase s + 1) - phase s)%Q as H1 by ring. rewrite H1, Hk. ring_simplify. reflexivity.
Qed.

(** ** Printed gates *)
Lemma print_basic_line t b : print_gate (GBasic t b) = line [] (qasm_name b) ([] ++ operand (lit "q") t) [].
Proof. unfold print_gate, line, operand. cbn [app]. destruct b; cbn [basic_name qasm_name]; rewrite <- ?app_assoc; reflexivity. Qed.
Lemma plain_q : plain (lit "q").
Proof. constructor; [notin_lit|constructor]. Qed.
Lemma print_parse_basic dflt t b : (t < 2 ^ 32)%N -> parse_gate dflt (print_gate (GBasic t b)) = Ok (PGate (GBasic t b)).
Proof.
  intros Ht. rewrite print_basic_line, parse_single; [|constructor|constructor|exact plain_q|exact (fun x => x)].
  rewrite try_parse_qubit_print by (change (2 ^ 63)%N with (2 ^ 32 * 2 ^ 31)%N; nia).
  cbn [bind]. now rewrite N.mod_small.
Qed.
Lemma no_annotation : annotated [] [].
Proof. right. split; [intros rest; discriminate|reflexivity]. Qed.
Lemma print_parse_controlled dflt c t (isx : bool) : (c < 2 ^ 32)%N -> (t < 2 ^ 32)%N ->
  parse_gate dflt (print_gate (GControlled c (SBasic t (if isx then GX else GZ)) ControlFirst dflt)) =
  Ok (PGate (GControlled c (SBasic t (if isx then GX else GZ)) ControlFirst dflt)).
Proof.
  intros Hc Ht.
  assert (print_gate (GControlled c (SBasic t (if isx then GX else GZ)) ControlFirst dflt) =
          line [] (if isx then lit "cx" else lit "cz") (two_ops [] [] (lit "q") (lit "q") c t) []) as ->.
  { unfold line, two_ops, operand. cbn [app print_gate]. destruct isx; cbn; rewrite <- !app_assoc; cbn; rewrite <- !app_assoc; reflexivity. }
  rewrite (parse_controlled dflt [] [] [] isx (lit "q") (lit "q") c t [] [] ControlFirst dflt);
    try (now constructor); try exact plain_q; try (exact (fun x => x)); try exact no_annotation;
    try (change (2 ^ 63)%N with (2 ^ 32 * 2 ^ 31)%N; nia).
  now rewrite !N.mod_small.
Qed.

Lemma split_str_none s : ~ In "*"%char s -> split_on_str s (lit "*pi/") = match s with [] => [] | _ => [s] end.
Proof.
  intros H. unfold split_on_str. rewrite <- (app_nil_r s) at 2.
  rewrite (split_str_skip (lit "*pi/") "*") by (try reflexivity; try assumption; lia).
  replace (S (length s) - length s) with 1 by lia. cbn. rewrite app_nil_r.
  destruct s as [|c s]; [reflexivity|]. destruct (rev (c :: s)) eqn:E.
  - apply (f_equal (@rev _)) in E. rewrite rev_involutive in E. discriminate.
  - rewrite <- E, rev_involutive. reflexivity.
Qed.
Lemma parse_angle_no_star s : ~ In "*"%char s ->
  (forall r, s <> lit "pi/" ++ r) -> (forall r, s <> lit "-pi/" ++ r) -> parse_angle s = Throw ParseException.
Proof.
  intros Hs H1 H2. unfold parse_angle.
  assert (forall neg s', ~ In "*"%char s' -> (forall r, s' <> lit "pi/" ++ r) ->
    match strip_prefix (lit "pi/") s' with
    | Some r => do d <- try_parse_long r ;; Ok (mkFrac 1 d neg)
    | None =>
      let fin := fun split =>
        match split with
        | [a; b] => do n <- try_parse_long a ;; do d <- try_parse_long b ;; Ok (mkFrac n d neg)
        | _ => Throw ParseException
        end in
      let sp := split_on_str s' (lit "*pi/") in
      match sp with
      | [_; _] => fin sp
      | _ => fin (split_on_str (s' ++ lit "/1") (lit "*pi/"))
      end
    end = Throw ParseException) as K.
  { intros neg s' Hn Hp. destruct (strip_prefix (lit "pi/") s') as [r|] eqn:E.
    - apply strip_prefix_some in E. exfalso. exact (Hp r E).
    - cbv zeta. rewrite !split_str_none; [destruct s'; reflexivity| |exact Hn].
      intros Hin. apply in_app_or in Hin. destruct Hin as [Hin|Hin]; [tauto|]. revert Hin. notin_lit. }
  destruct (strip_prefix (lit "-") s) as [r|] eqn:E.
  - apply strip_prefix_some in E. subst s. apply K.
    + intros Hin. apply Hs. right. exact Hin.
    + intros r' ->. apply (H2 r'). reflexivity.
  - now apply K.
Qed.
Lemma print_Z_head z c s : is_digit c = false -> c <> "-"%char -> forall r, print_Z z ++ s <> c :: r.
Proof.
  intros Hc Hm r H. unfold print_Z in H. destruct (z <? 0)%Z; [injection H as H _; congruence|].
  assert (Hd := print_N_digits (Z.to_N z)). assert (Hne := print_N_nonempty (Z.to_N z)).
  destruct (print_N (Z.to_N z)) as [|x l]; [congruence|]. injection H as H _. subst x. inversion Hd; congruence.
Qed.
Lemma print_Z_chars z c : is_digit c = false -> c <> "-"%char -> ~ In c (print_Z z).
Proof.
  intros Hc Hm H. unfold print_Z in H. destruct (z <? 0)%Z; [destruct H as [H|H]; [congruence|]|]; revert H; now apply print_N_no.
Qed.

Lemma printed_rz_rejected dflt q f : parse_gate dflt (print_gate (GRZ q f)) = Throw ParseException.
Proof.
  set (a := print_Z (fr_num f) ++ lit "pi/" ++ print_Z (fr_den f)).
  assert (forall c, is_digit c = false -> c <> "-"%char -> ~ In c (lit "pi/") -> ~ In c a) as Ha.
  { intros c H1 H2 H3 Hin. unfold a in Hin. apply in_app_or in Hin. destruct Hin as [Hin|Hin]; [revert Hin; now apply print_Z_chars|].
    apply in_app_or in Hin. destruct Hin as [Hin|Hin]; [tauto|revert Hin; now apply print_Z_chars]. }
  assert (print_gate (GRZ q f) = line [] (lit "rz(" ++ a ++ lit ")") ([] ++ operand (lit "q") q) []) as ->.
  { unfold a, line, operand. cbn [print_gate app]. cbn. repeat (rewrite <- ?app_assoc; cbn). reflexivity. }
  assert (forall c, In c (lit " ;") -> ~ In c (lit "rz(" ++ a ++ lit ")")) as Hc.
  { intros c Hcc Hin. apply in_app_or in Hin. destruct Hin as [Hin|Hin].
    - cbn in Hcc; destruct Hcc as [<-|[<-|[]]]; revert Hin; notin_lit.
    - apply in_app_or in Hin. destruct Hin as [Hin|Hin].
      + revert Hin. cbn in Hcc; destruct Hcc as [<-|[<-|[]]]; apply Ha; try reflexivity; try discriminate; notin_lit.
      + cbn in Hcc; destruct Hcc as [<-|[<-|[]]]; revert Hin; notin_lit. }
  rewrite parse_gate_line.
  - rewrite one_operand by (try exact plain_q; constructor). unfold parse_qasm_gate. cbn [ln_instr ln_args].
    change (basic_of_name (lit "rz(" ++ a ++ lit ")")) with (@None basic). cbv iota.
    change (text_eqb (lit "rz(" ++ a ++ lit ")") (lit "cx")) with false.
    change (text_eqb (lit "rz(" ++ a ++ lit ")") (lit "cz")) with false. cbv iota.
    change (strip_prefix (lit "rz") (lit "rz(" ++ a ++ lit ")")) with (Some ("("%char :: a ++ lit ")")). cbv iota.
    change (lit "rz(" ++ a ++ lit ")") with (lit "rz" ++ lit "(" ++ a ++ lit ")").
    rewrite bracket_arg; [|notin_lit|apply Ha; try reflexivity; try discriminate; notin_lit|apply Ha; try reflexivity; try discriminate; notin_lit].
    cbn [bind].
    assert (~ In "*"%char a) as Hs by (apply Ha; try reflexivity; try discriminate; notin_lit).
    replace (text_eqb a (lit "pi*-1")) with false.
    2:{ symmetry. apply text_eqb_neq. intros E. apply Hs. rewrite E. cbn. tauto. }
    rewrite parse_angle_no_star; [reflexivity|exact Hs| |].
    + intros r. unfold a. apply print_Z_head; [reflexivity|discriminate].
    + intros r. unfold a. unfold print_Z at 1. destruct (fr_num f <? 0)%Z.
      * intros H. injection H as H.
        assert (Hd := print_N_digits (Z.to_N (- fr_num f))). assert (Hne := print_N_nonempty (Z.to_N (- fr_num f))).
        destruct (print_N (Z.to_N (- fr_num f))) as [|x l]; [congruence|]. injection H as H _. subst x. inversion Hd; discriminate.
      * assert (Hd := print_N_digits (Z.to_N (fr_num f))). assert (Hne := print_N_nonempty (Z.to_N (fr_num f))).
        destruct (print_N (Z.to_N (fr_num f))) as [|x l]; [congruence|]. intros H. injection H as H _. subst x. inversion Hd; discriminate.
  - constructor.
  - split; [apply Hc; inlit|]. split; [apply Hc; inlit|]. split; [split; [reflexivity|discriminate]|]. split; [reflexivity|discriminate].
  - apply operands_no_semi; [exact plain_q|constructor].
  - exact (fun x => x).
Qed.

(** ** Where undefined behaviour can come from *)
Definition bad_line (l : text) : Prop :=
  let s := ltrim l in
  s = [] \/ s = lit "/" \/
  exists q, split_instruction_and_args s = Ok q /\
    ((exists r, ln_instr q = lit "rz" ++ r) /\ ln_args q = [] \/
     (exists r, ln_instr q = lit "crz(pi/" ++ r) /\ length (ln_args q) < 2).

Lemma bind_ub {A B} (m : outcome A) (f : A -> outcome B) u :
  bind m f = UB u -> m = UB u \/ exists a, m = Ok a /\ f a = UB u.
Proof. destruct m; cbn; intros H; try discriminate; eauto. left; congruence. Qed.
Lemma at_ub {A} (l : list A) i u : at_ l i = UB u -> False.
Proof. unfold at_. destruct (nth_error l i); discriminate. Qed.
Lemma long_ub s u : try_parse_long s = UB u -> False.
Proof.
  unfold try_parse_long. destruct (strtol10 (c_str s)) as [[v r]|]; [|discriminate].
  destruct (_ || _); [discriminate|]. destruct r; discriminate.
Qed.
Lemma index_ub s u : get_index_arg s = UB u -> False.
Proof.
  unfold get_index_arg. intros H. apply bind_ub in H. destruct H as [H|(a & _ & H)]; [exact (at_ub _ _ _ H)|].
  apply bind_ub in H. destruct H as [H|(b & _ & H)]; [exact (at_ub _ _ _ H)|].
  unfold try_parse_qubit in H. apply bind_ub in H. destruct H as [H|(v & _ & H)]; [exact (long_ub _ _ H)|discriminate].
Qed.
Lemma bracket_ub s u : get_arg_in_brackets s = UB u -> False.
Proof.
  unfold get_arg_in_brackets. intros H. apply bind_ub in H. destruct H as [H|(a & _ & H)]; exact (at_ub _ _ _ H).
Qed.
Lemma angle_ub s u : parse_angle s = UB u -> False.
Proof.
  unfold parse_angle. destruct (match strip_prefix (lit "-") s with Some r => (true, r) | None => (false, s) end) as [neg s'].
  destruct (strip_prefix (lit "pi/") s') as [r|].
  - intros H. apply bind_ub in H. destruct H as [H|(a & _ & H)]; [exact (long_ub _ _ H)|discriminate].
  - cbv zeta.
    assert (forall l, match l with
        | [a; b] => do n <- try_parse_long a ;; do d <- try_parse_long b ;; Ok (mkFrac n d neg)
        | _ => Throw ParseException
        end = UB u -> False) as K.
    { intros [|a [|b [|? ?]]]; try discriminate. intros H. apply bind_ub in H. destruct H as [H|(x & _ & H)]; [exact (long_ub _ _ H)|].
      apply bind_ub in H. destruct H as [H|(y & _ & H)]; [exact (long_ub _ _ H)|discriminate]. }
    intros H. destruct (split_on_str s' (lit "*pi/")) as [|a [|b [|? ?]]]; try exact (K _ H).
    exact (K [a; b] H).
Qed.
Lemma split_nonempty_first s c : In c s -> exists x, nth_error (split_on s c) 0 = Some x.
Proof.
  intros H. assert (s <> []) as Hs by (intros ->; destruct H). assert (Hl := split_on_length s c Hs).
  destruct (split_on s c) as [|x l]; [discriminate|]. exists x. reflexivity.
Qed.

Ltac ub_step H :=
  let a := fresh "a" in let Ha := fresh "Ha" in
  apply bind_ub in H; destruct H as [H|(a & Ha & H)];
  [first [exfalso; exact (at_ub _ _ _ H)|exfalso; exact (index_ub _ _ H)|exfalso; exact (bracket_ub _ _ H)|exfalso; exact (angle_ub _ _ H)|idtac]|].

Lemma parse_gate_ub dflt l u : parse_gate dflt l = UB u -> bad_line l.
Proof.
  unfold parse_gate, bad_line. cbv zeta. generalize (ltrim l). clear l. intros s H.
  destruct s as [|c0 s]; [left; reflexivity|right]. cbn [idx nth_error bind] in H.
  destruct (Ascii.eqb c0 "/") eqn:E0.
  - destruct s as [|c1 s]; [left; apply Ascii.eqb_eq in E0; subst; reflexivity|]. right.
    cbn [idx nth_error bind] in H. destruct (Ascii.eqb c1 "/"); [discriminate|].
    revert H. apply Ascii.eqb_eq in E0. subst c0. generalize (c1 :: s). clear. intros s H. revert H.
    generalize ("/"%char :: s). clear s. intros s H.
    apply bind_ub in H. destruct H as [H|(q & Hq & H)].
    { exfalso. unfold split_instruction_and_args in H. destruct (negb _); [discriminate|]. ub_step H. ub_step H.
      - unfold split_on_first in H. destruct (find_char a " "); discriminate.
      - destruct a0. discriminate. }
    exists q. split; [exact Hq|]. clear Hq s.
    destruct (is_ignored_instruction (ln_instr q)); [discriminate|].
    destruct (text_eqb (ln_instr q) (lit "qreg")).
    { exfalso. unfold parse_qreg in H. destruct (ln_args q) as [|a [|? ?]]; try discriminate.
      ub_step H. unfold get_index_arg in Ha. destruct (split_on a "[") as [|x [|y l]]; discriminate. }
    ub_step H; [|discriminate].
    unfold parse_qasm_gate in H. destruct (basic_of_name (ln_instr q)) as [b|].
    { exfalso. ub_step H. ub_step H. discriminate. }
    destruct (text_eqb (ln_instr q) (lit "cx")).
    { exfalso. destruct (ln_args q) as [|a [|b [|? ?]]]; try discriminate. ub_step H. ub_step H. discriminate. }
    destruct (text_eqb (ln_instr q) (lit "cz")).
    { exfalso. destruct (ln_args q) as [|a [|b [|? ?]]]; try discriminate. ub_step H. ub_step H. discriminate. }
    destruct (strip_prefix (lit "rz") (ln_instr q)) as [r|] eqn:Er.
    { left. apply strip_prefix_some in Er. split; [eauto|]. destruct (ln_args q) as [|a args]; [reflexivity|]. exfalso.
      ub_step H. destruct (text_eqb a0 (lit "pi*-1")).
      - ub_step H. ub_step H. discriminate.
      - ub_step H. destruct (_ =? 1)%Z.
        + ub_step H. ub_step H. discriminate.
        + cbn [idx nth_error bind] in H. ub_step H. discriminate. }
    destruct (strip_prefix (lit "crz") (ln_instr q)) as [r|] eqn:Ec.
    { right. apply strip_prefix_some in Ec. destruct (strip_prefix (lit "(pi/") r) as [r'|] eqn:Er'; [|discriminate].
      apply strip_prefix_some in Er'. subst r. split; [exists r'; exact Ec|].
      destruct (ln_args q) as [|a [|b args]]; cbn [length]; [lia|lia|]. exfalso.
      cbn [idx nth_error bind] in H. ub_step H. ub_step H. ub_step H. ub_step H. discriminate. }
    exfalso. destruct (text_eqb (ln_instr q) (lit "reset")); [|discriminate].
    unfold parse_reset in H. destruct (ln_args q) as [|a [|? ?]]; try discriminate.
    destruct (contains a "[") eqn:Ect; [|discriminate]. apply contains_In in Ect.
    destruct (split_nonempty_first _ _ Ect) as [x Hx]. unfold idx in H. rewrite Hx in H. cbn [bind] in H.
    ub_step H. discriminate.
  - right. cbn [bind] in H. revert H. generalize (c0 :: s). clear. intros s H.
    apply bind_ub in H. destruct H as [H|(q & Hq & H)].
    { exfalso. unfold split_instruction_and_args in H. destruct (negb _); [discriminate|]. ub_step H. ub_step H.
      - unfold split_on_first in H. destruct (find_char a " "); discriminate.
      - destruct a0. discriminate. }
    exists q. split; [exact Hq|]. clear Hq s.
    destruct (is_ignored_instruction (ln_instr q)); [discriminate|].
    destruct (text_eqb (ln_instr q) (lit "qreg")).
    { exfalso. unfold parse_qreg in H. destruct (ln_args q) as [|a [|? ?]]; try discriminate.
      ub_step H. unfold get_index_arg in Ha. destruct (split_on a "[") as [|x [|y l]]; discriminate. }
    ub_step H; [|discriminate].
    unfold parse_qasm_gate in H. destruct (basic_of_name (ln_instr q)) as [b|].
    { exfalso. ub_step H. ub_step H. discriminate. }
    destruct (text_eqb (ln_instr q) (lit "cx")).
    { exfalso. destruct (ln_args q) as [|a [|b [|? ?]]]; try discriminate. ub_step H. ub_step H. discriminate. }
    destruct (text_eqb (ln_instr q) (lit "cz")).
    { exfalso. destruct (ln_args q) as [|a [|b [|? ?]]]; try discriminate. ub_step H. ub_step H. discriminate. }
    destruct (strip_prefix (lit "rz") (ln_instr q)) as [r|] eqn:Er.
    { left. apply strip_prefix_some in Er. split; [eauto|]. destruct (ln_args q) as [|a args]; [reflexivity|]. exfalso.
      ub_step H. destruct (text_eqb a0 (lit "pi*-1")).
      - ub_step H. ub_step H. discriminate.
      - ub_step H. destruct (_ =? 1)%Z.
        + ub_step H. ub_step H. discriminate.
        + cbn [idx nth_error bind] in H. ub_step H. discriminate. }
    destruct (strip_prefix (lit "crz") (ln_instr q)) as [r|] eqn:Ec.
    { right. apply strip_prefix_some in Ec. destruct (strip_prefix (lit "(pi/") r) as [r'|] eqn:Er'; [|discriminate].
      apply strip_prefix_some in Er'. subst r. split; [exists r'; exact Ec|].
      destruct (ln_args q) as [|a [|b args]]; cbn [length]; [lia|lia|]. exfalso.
      cbn [idx nth_error bind] in H. ub_step H. ub_step H. ub_step H. ub_step H. discriminate. }
    exfalso. destruct (text_eqb (ln_instr q) (lit "reset")); [|discriminate].
    unfold parse_reset in H. destruct (ln_args q) as [|a [|? ?]]; try discriminate.
    destruct (contains a "[") eqn:Ect; [|discriminate]. apply contains_In in Ect.
    destruct (split_nonempty_first _ _ Ect) as [x Hx]. unfold idx in H. rewrite Hx in H. cbn [bind] in H.
    ub_step H. discriminate.
Qed.

Lemma not_rotation g : is_decomposed g = true <-> ~ is_rotation g.
Proof.
  unfold is_rotation. destruct g as [q b|q f|c [q b|q f] ct pl|r q]; cbn; split; intros H; try discriminate; try reflexivity.
  - intros [(? & ? & [=])|(? & ? & ? & ? & ? & [=])].
  - exfalso. apply H. left. eauto.
  - intros [(? & ? & [=])|(? & ? & ? & ? & ? & [=])].
  - exfalso. apply H. right. exists c, q, f, ct, pl. reflexivity.
  - intros [(? & ? & [=])|(? & ? & ? & ? & ? & [=])].
Qed.
