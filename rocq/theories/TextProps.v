(** C01, C02: text helpers. *)
From Verif Require Import Base TextModel TextSpec TextProofs.

(** C01: fields never contain the delimiter. *)
Theorem C01_fields_have_no_delimiter : forall s d, Forall (fun f => ~ In d f) (split_on s d).
Proof. exact split_on_fields. Qed.
Print Assumptions C01_fields_have_no_delimiter.

(** C01: joining the fields with the delimiter (the library's own join) gives the line back. *)
Theorem C01_split_then_join : forall s d, join (split_on s d) [d] = s.
Proof. intros s d. rewrite join_intercalate. exact (split_on_join s d). Qed.
Print Assumptions C01_split_then_join.

(** C01: one field more than delimiters; an empty line has no field. *)
Theorem C01_number_of_fields : forall s d,
  length (split_on s d) = match s with [] => 0 | _ => S (count_char d s) end.
Proof. intros [|c s] d; [reflexivity|]. apply split_on_length. discriminate. Qed.
Print Assumptions C01_number_of_fields.

(** C01, conversely: splitting a joined list of delimiter-free fields gives the list back
    (except for the list holding just the empty field, which joins to the empty line). *)
Theorem C01_join_then_split : forall d l,
  l <> [] -> l <> [[]] -> Forall (fun f => ~ In d f) l -> split_on (join l [d]) d = l.
Proof. intros d l. rewrite join_intercalate. exact (split_on_intercalate d l). Qed.
Print Assumptions C01_join_then_split.

(** C01: splitting on the first delimiter. *)
Theorem C01_split_on_first : forall s d,
  match split_on_first s d with
  | Ok (a, b) => s = a ++ d :: b /\ ~ In d a
  | Throw e => e = LogicError /\ ~ In d s
  | _ => False
  end.
Proof.
  intros s d. unfold split_on_first. destruct (find_char s d) as [[a b]|] eqn:E.
  - exact (find_char_some s d a b E).
  - split; [reflexivity|]. now apply find_char_none.
Qed.
Print Assumptions C01_split_on_first.

Example C01_ex : split_on (lit "a,,b,") "," = [lit "a"; []; lit "b"; []].
Proof. reflexivity. Qed.
Example C01_ex_join : [lit "a"; []; lit "b"; []] <> [[]] /\
  Forall (fun f => ~ In ","%char f) [lit "a"; []; lit "b"; []].
Proof. split; [discriminate|]. repeat constructor; cbn; intuition discriminate. Qed.

(** C02: replacement is the substitution exactly when the character does not
    occur or is the last character. *)
Theorem C02_str_replace_partial : forall s t r,
  str_replace s t r = substitute s t r <-> (~ In t s \/ exists pre, s = pre ++ [t]).
Proof. exact str_replace_correct_iff. Qed.
Print Assumptions C02_str_replace_partial.

(** C02: in every other case the text after the last occurrence is dropped. *)
Theorem C02_str_replace_drops_tail : forall pre tail t r, ~ In t tail ->
  str_replace (pre ++ t :: tail) t r = substitute (pre ++ [t]) t r.
Proof. exact str_replace_last. Qed.
Print Assumptions C02_str_replace_drops_tail.

(** C02 as stated is false of the code. *)
Theorem C02_refuted : exists s t r, str_replace s t r <> substitute s t r.
Proof. exists (lit "a,b"), ","%char, (lit ";"). vm_compute. discriminate. Qed.
Print Assumptions C02_refuted.

Example C02_ex : str_replace (lit "a""b""") """" (lit "\""") = lit "a\""b\""".
Proof. reflexivity. Qed.
Example C02_ex_lost : str_replace (lit "x=1, y=2") "," (lit ";") = lit "x=1;".
Proof. reflexivity. Qed.
