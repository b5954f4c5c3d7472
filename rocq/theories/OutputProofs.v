(** Lemmas about the JSON that is written. *)
From Verif Require Import Base TextModel TextProofs PatchesModel InstrProofs LayoutModel LayoutSpec SliceModel SliceSpec SliceProofs BellProps OutputModel OutputSpec.
Open Scope nat_scope.

(** ** What is dumped is JSON *)

Section JsonInd.
Variable P : json -> Prop.
Hypothesis Pnull : P JNull.
Hypothesis Pbool : forall b, P (JBool b).
Hypothesis Pnum : forall t, P (JNum t).
Hypothesis Pstr : forall t, P (JStr t).
Hypothesis Parr : forall l, Forall P l -> P (JArr l).
Hypothesis Pobj : forall l, Forall (fun kv => P (snd kv)) l -> P (JObj l).
Fixpoint json_ind2 (j : json) : P j :=
  match j with
  | JNull => Pnull | JBool b => Pbool b | JNum t => Pnum t | JStr t => Pstr t
  | JArr l => Parr l ((fix go l : Forall P l := match l with [] => Forall_nil P | x :: r => Forall_cons x (json_ind2 x) (go r) end) l)
  | JObj l => Pobj l ((fix go l : Forall (fun kv => P (snd kv)) l :=
      match l with [] => Forall_nil _ | x :: r => Forall_cons x (json_ind2 (snd x)) (go r) end) l)
  end.
End JsonInd.

(** Values whose strings need no escapes *)
Inductive plain : json -> Prop :=
| pl_null : plain JNull
| pl_bool b : plain (JBool b)
| pl_num t : number t -> plain (JNum t)
| pl_str t : body t -> plain (JStr t)
| pl_arr l : Forall plain l -> plain (JArr l)
| pl_obj l : Forall (fun kv => body (fst kv) /\ plain (snd kv)) l -> plain (JObj l).

Lemma blanks_spaces : forall n, blanks (repeat " "%char n).
Proof. intros n. apply Forall_forall. intros x H. apply repeat_spec in H. subst x. unfold white. cbn. auto. Qed.
Lemma white_newline : white newline_char.
Proof. unfold white, newline_char. rewrite N_ascii_embedding by lia. cbn. auto. Qed.
Lemma blanks_line : forall n, blanks (newline_char :: repeat " "%char n).
Proof. intros n. constructor; [apply white_newline|apply blanks_spaces]. Qed.

Lemma dump_denotes : forall j, plain j -> forall cur, denotes j (dump cur j).
Proof.
  induction j as [|b|t|t|l IH|l IH] using json_ind2; intros Pj cur.
  - constructor.
  - destruct b; constructor.
  - inversion Pj; subst. now constructor.
  - inversion Pj; subst. cbn [dump]. unfold quoted, quote_char. now constructor.
  - assert (Pl : Forall plain l) by (now inversion Pj).
    destruct l as [|x l]; [exact (dn_arr0 [] (Forall_nil _))|].
    cbn [dump]. set (inner := repeat " "%char (cur + step_width)). set (tail := newline_char :: repeat " "%char cur).
    set (its := fun l => lines (map (fun x => inner ++ dump (cur + step_width) x) l)).
    assert (It : forall l, l <> [] -> Forall (fun j => plain j -> forall cur, denotes j (dump cur j)) l -> Forall plain l ->
      items l (newline_char :: its l ++ tail)).
    { clear. intros l. induction l as [|x r IHr]; intros Ne F G; [congruence|]. apply Forall_cons_iff in F. apply Forall_cons_iff in G.
      destruct F as [F1 F2], G as [G1 G2]. destruct r as [|y r].
      - change (its [x]) with (inner ++ dump (cur + step_width) x).
        replace (newline_char :: (inner ++ dump (cur + step_width) x) ++ tail) with ((newline_char :: inner) ++ dump (cur + step_width) x ++ tail)
          by (cbn [app]; now rewrite <- app_assoc).
        constructor; [apply blanks_line|auto|apply blanks_line].
      - change (its (x :: y :: r)) with ((inner ++ dump (cur + step_width) x) ++ [","%char; newline_char] ++ its (y :: r)).
        replace (newline_char :: ((inner ++ dump (cur + step_width) x) ++ [","%char; newline_char] ++ its (y :: r)) ++ tail)
          with ((newline_char :: inner) ++ dump (cur + step_width) x ++ [] ++ ","%char :: newline_char :: its (y :: r) ++ tail)
          by (cbn [app]; rewrite <- !app_assoc; reflexivity).
        constructor; [apply blanks_line|auto|constructor|]. apply IHr; auto. discriminate. }
    change (lines (map _ (x :: l))) with (its (x :: l)).
    replace (lit "[" ++ [newline_char] ++ its (x :: l) ++ newline_char :: repeat " "%char cur ++ ["]"%char])
      with ("["%char :: (newline_char :: its (x :: l) ++ tail) ++ ["]"%char]).
    + constructor. apply It; auto. discriminate.
    + unfold tail. cbn. rewrite <- app_assoc. reflexivity.
  - assert (Pl : Forall (fun kv => body (fst kv) /\ plain (snd kv)) l) by (now inversion Pj).
    destruct l as [|x l]; [exact (dn_obj0 [] (Forall_nil _))|].
    cbn [dump]. set (inner := repeat " "%char (cur + step_width)). set (tail := newline_char :: repeat " "%char cur).
    set (its := fun l => lines (map (fun kx => inner ++ quoted (fst kx) ++ lit ": " ++ dump (cur + step_width) (snd kx)) l)).
    assert (It : forall l, l <> [] -> Forall (fun kv => plain (snd kv) -> forall cur, denotes (snd kv) (dump cur (snd kv))) l ->
      Forall (fun kv => body (fst kv) /\ plain (snd kv)) l -> members l (newline_char :: its l ++ tail)).
    { clear. intros l. induction l as [|[k x] r IHr]; intros Ne F G; [congruence|]. apply Forall_cons_iff in F. apply Forall_cons_iff in G.
      destruct F as [F1 F2], G as [[G0 G1] G2]. cbn [fst snd] in *. destruct r as [|y r].
      - change (its [(k, x)]) with (inner ++ quoted k ++ lit ": " ++ dump (cur + step_width) x).
        replace (newline_char :: (inner ++ quoted k ++ lit ": " ++ dump (cur + step_width) x) ++ tail)
          with ((newline_char :: inner) ++ (ascii_of_N 34 :: k ++ [ascii_of_N 34]) ++ [] ++ ":"%char :: [" "%char] ++ dump (cur + step_width) x ++ tail)
          by (unfold quoted, quote_char; cbn [app lit list_ascii_of_string]; rewrite <- !app_assoc; cbn [app]; rewrite <- !app_assoc; reflexivity).
        constructor; auto; [apply blanks_line|constructor|apply (blanks_spaces 1)|apply blanks_line].
      - change (its ((k, x) :: y :: r)) with ((inner ++ quoted k ++ lit ": " ++ dump (cur + step_width) x) ++ [","%char; newline_char] ++ its (y :: r)).
        replace (newline_char :: ((inner ++ quoted k ++ lit ": " ++ dump (cur + step_width) x) ++ [","%char; newline_char] ++ its (y :: r)) ++ tail)
          with ((newline_char :: inner) ++ (ascii_of_N 34 :: k ++ [ascii_of_N 34]) ++ [] ++ ":"%char :: [" "%char] ++ dump (cur + step_width) x ++ []
                ++ ","%char :: newline_char :: its (y :: r) ++ tail)
          by (unfold quoted, quote_char; cbn [app lit list_ascii_of_string]; rewrite <- !app_assoc; cbn [app]; rewrite <- !app_assoc; cbn [app]; rewrite <- ?app_assoc; reflexivity).
        constructor; auto; [apply blanks_line|constructor|apply (blanks_spaces 1)|constructor|]. apply IHr; auto. discriminate. }
    change (lines (map _ (x :: l))) with (its (x :: l)).
    replace (lit "{" ++ [newline_char] ++ its (x :: l) ++ newline_char :: repeat " "%char cur ++ ["}"%char])
      with ("{"%char :: (newline_char :: its (x :: l) ++ tail) ++ ["}"%char]).
    + constructor. apply It; auto. discriminate.
    + unfold tail. cbn. rewrite <- app_assoc. reflexivity.
Qed.

(** ** Brackets balance *)

Inductive mode := Outside | Inside | Escape.
Definition neutral (c : ascii) : bool :=
  existsb (Ascii.eqb c) (list_ascii_of_string ",:0123456789+-.eEtrufalsn " ++ [ascii_of_N 9; ascii_of_N 10; ascii_of_N 13]).
Fixpoint scan (m : mode) (d : Z) (t : text) : option (mode * Z) :=
  match t with
  | [] => Some (m, d)
  | c :: r =>
    match m with
    | Outside =>
        if Ascii.eqb c (ascii_of_N 34) then scan Inside d r
        else if (Ascii.eqb c "[" || Ascii.eqb c "{")%bool then scan Outside (d + 1) r
        else if (Ascii.eqb c "]" || Ascii.eqb c "}")%bool then scan Outside (d - 1) r
        else if neutral c then scan Outside d r else None
    | Inside => if Ascii.eqb c (ascii_of_N 34) then scan Outside d r else if Ascii.eqb c "\" then scan Escape d r else scan Inside d r
    | Escape => scan Inside d r
    end
  end.
Lemma scan_app : forall a m d b, scan m d (a ++ b) = match scan m d a with Some (m', d') => scan m' d' b | None => None end.
Proof.
  induction a as [|c a IH]; intros m d b; cbn [app scan]; [reflexivity|].
  destruct m; [|destruct (Ascii.eqb c _); [|destruct (Ascii.eqb c _)]; apply IH|apply IH].
  destruct (Ascii.eqb c _); [apply IH|]. destruct (_ || _)%bool; [apply IH|]. destruct (_ || _)%bool; [apply IH|]. destruct (neutral c); [apply IH|reflexivity].
Qed.
Definition calm_char (c : ascii) : Prop :=
  Ascii.eqb c (ascii_of_N 34) = false /\ (Ascii.eqb c "[" || Ascii.eqb c "{")%bool = false /\ (Ascii.eqb c "]" || Ascii.eqb c "}")%bool = false /\ neutral c = true.
Lemma scan_calm : forall t d, Forall calm_char t -> scan Outside d t = Some (Outside, d).
Proof.
  induction t as [|c t IH]; intros d H; cbn [scan]; [reflexivity|]. apply Forall_cons_iff in H. destruct H as [(A & B & C & D) H]. now rewrite A, B, C, D, IH.
Qed.
Lemma scan_blanks : forall b d, blanks b -> scan Outside d b = Some (Outside, d).
Proof.
  intros b d H. apply scan_calm. eapply Forall_impl; [|exact H]. intros c Hc. unfold white in Hc. cbn [In] in Hc.
  assert (X : c = ascii_of_N 32 \/ c = ascii_of_N 9 \/ c = ascii_of_N 10 \/ c = ascii_of_N 13)
    by (destruct Hc as [E|[E|[E|[E|[]]]]]; rewrite E, ascii_N_embedding; auto).
  destruct X as [->|[->|[->| ->]]]; repeat split.
Qed.
Lemma scan_body : forall t, body t -> forall d r, scan Inside d (t ++ r) = scan Inside d r.
Proof.
  induction 1 as [|c t Hc N1 N2 H IH|c t Hc H IH|a b c d0 t Ha Hb Hc Hd H IH]; intros d r; cbn [app]; auto.
  - cbn [scan]. destruct (Ascii.eqb_spec c (ascii_of_N 34)) as [->|_]; [exfalso; apply N1; reflexivity|].
    destruct (Ascii.eqb_spec c "\"%char) as [->|_]; [exfalso; apply N2; reflexivity|]. apply IH.
  - change (scan Inside d (t ++ r) = scan Inside d r). apply IH.
  - assert (Hx : forall x, hex x -> Ascii.eqb x (ascii_of_N 34) = false /\ Ascii.eqb x "\" = false).
    { intros x Hx. unfold hex in Hx. split; apply Ascii.eqb_neq; intros ->; vm_compute in Hx; destruct Hx as [[X Y]|[[X Y]|[X Y]]]; congruence. }
    assert (Hs : forall x y, hex x -> scan Inside d (x :: y) = scan Inside d y) by (intros x y X; cbn [scan]; now destruct (Hx x X) as [-> ->]).
    change (scan Inside d (a :: b :: c :: d0 :: t ++ r) = scan Inside d r). rewrite !Hs by assumption. apply IH.
Qed.
Lemma scan_quoted : forall t r d, body t -> scan Outside d ((ascii_of_N 34 :: t ++ [ascii_of_N 34]) ++ r) = scan Outside d r.
Proof. intros t r d H. cbn [app scan]. rewrite Ascii.eqb_refl, <- app_assoc, scan_body by exact H. reflexivity. Qed.

Scheme denotes_mind := Induction for denotes Sort Prop
  with items_mind := Induction for items Sort Prop
  with members_mind := Induction for members Sort Prop.
Lemma denotes_scan : forall v t, denotes v t -> forall d, scan Outside d t = Some (Outside, d).
Proof.
  apply (denotes_mind (fun v t _ => forall d, scan Outside d t = Some (Outside, d)) (fun l t _ => forall d, scan Outside d t = Some (Outside, d))
    (fun l t _ => forall d, scan Outside d t = Some (Outside, d))).
  - reflexivity.
  - reflexivity.
  - reflexivity.
  - intros t [_ H] d. apply scan_calm. eapply Forall_impl; [|exact H]. intros c Hc. cbn in Hc.
    repeat (destruct Hc as [<-|Hc]; [repeat split|]). destruct Hc.
  - intros t H d. pose proof (scan_quoted t [] d H) as X. rewrite app_nil_r in X. exact X.
  - intros b H d. cbn [scan]. cbn. rewrite scan_app, scan_blanks by exact H. cbn. f_equal. f_equal. lia.
  - intros l t _ IH d. cbn [scan]. cbn. rewrite scan_app, IH. cbn. f_equal. f_equal. lia.
  - intros b H d. cbn [scan]. cbn. rewrite scan_app, scan_blanks by exact H. cbn. f_equal. f_equal. lia.
  - intros l t _ IH d. cbn [scan]. cbn. rewrite scan_app, IH. cbn. f_equal. f_equal. lia.
  - intros v b t b' H _ IH H' d. rewrite scan_app, scan_blanks, scan_app, IH, scan_blanks by assumption. reflexivity.
  - intros v b t b' l t' H _ IH H' _ IH' d. rewrite scan_app, scan_blanks, scan_app, IH, scan_app, scan_blanks by assumption. cbn. apply IH'.
  - intros k v b1 b2 b3 t b4 H1 H2 H3 H4 Hk _ IH d.
    rewrite scan_app, scan_blanks, scan_quoted, scan_app, scan_blanks by assumption. cbn. rewrite scan_app, scan_blanks, scan_app, IH, scan_blanks by assumption. reflexivity.
  - intros k v b1 b2 b3 t b4 l t' H1 H2 H3 H4 Hk _ IH _ IH' d.
    rewrite scan_app, scan_blanks, scan_quoted, scan_app, scan_blanks by assumption. cbn.
    rewrite scan_app, scan_blanks, scan_app, IH, scan_app, scan_blanks by assumption. cbn. apply IH'.
Qed.
Lemma json_scan : forall v t, json_text v t -> scan Outside 0 t = Some (Outside, 0%Z).
Proof. intros v t (b & m & b' & -> & H1 & H2 & H3). rewrite scan_app, scan_blanks, scan_app, (denotes_scan _ _ H2), scan_blanks by assumption. reflexivity. Qed.

(** ** Grids *)

(** A grid with [F c] at tile [c] *)
Definition shows (far : cell) (j : json) (F : cell -> json) : Prop := is_grid far j /\ forall c, on_lattice far c -> grid_at j c = Some (F c).

Lemma shows_ext : forall far j F G, (forall c, on_lattice far c -> F c = G c) -> shows far j F -> shows far j G.
Proof. intros far j F G E [A B]. split; [exact A|]. intros c Hc. rewrite <- E by exact Hc. auto. Qed.

Lemma nth_repeat_lt : forall A (x : A) n i, i < n -> nth_error (repeat x n) i = Some x.
Proof. induction n as [|n IH]; intros [|i] H; cbn; try lia; auto. apply IH. lia. Qed.

Lemma shows_blank : forall far, on_lattice far (mkCell 0 0) -> shows far (blank_grid far) (fun _ => JNull).
Proof.
  intros far H. unfold on_lattice in H. cbn [row col] in H. split.
  - eexists. split; [reflexivity|]. rewrite repeat_length. split; [lia|]. apply Forall_forall. intros r Hr. apply repeat_spec in Hr. subst r.
    eexists. split; [reflexivity|]. rewrite repeat_length. lia.
  - intros c [Hr Hc]. unfold grid_at, element, blank_grid. destruct (Z.ltb_spec (row c) 0); [lia|]. rewrite nth_repeat_lt by lia.
    destruct (Z.ltb_spec (col c) 0); [lia|]. rewrite nth_repeat_lt by lia. reflexivity.
Qed.

Lemma shows_row : forall far j F i, shows far j F -> (0 <= i <= row far)%Z -> exists l, element i j = Some (JArr l) /\ Z.of_nat (length l) = (col far + 1)%Z
  /\ forall k, (0 <= k <= col far)%Z -> nth_error l (Z.to_nat k) = Some (F (mkCell i k)).
Proof.
  intros far j F i [(rows & -> & Hl & Hr) Ha] Hi. unfold element. destruct (Z.ltb_spec i 0); [lia|].
  destruct (nth_error rows (Z.to_nat i)) as [r|] eqn:E; [|apply nth_error_None in E; lia].
  rewrite Forall_forall in Hr. destruct (Hr r (nth_error_In _ _ E)) as (l & -> & Ll). exists l. split; [reflexivity|]. split; [exact Ll|].
  intros k Hk. specialize (Ha (mkCell i k)). unfold grid_at, element in Ha. cbn [row col] in Ha.
  destruct (Z.ltb_spec i 0); [lia|]. rewrite E in Ha. destruct (Z.ltb_spec k 0); [lia|]. apply Ha. unfold on_lattice. cbn. lia.
Qed.

Lemma at_cell_shows : forall far j F c f y, shows far j F -> on_lattice far c -> f (F c) = Ok y ->
  exists j', at_cell c f j = Ok j' /\ shows far j' (fun c' => if cell_eqb c' c then y else F c').
Proof.
  intros far j F c f y S Hc Hf. destruct (shows_row far j F (row c) S (proj1 Hc)) as (l & El & Ll & Hl).
  destruct S as [(rows & -> & Lr & Fr) Ha]. destruct Hc as [Hr Hc]. unfold at_cell, at_index at 1.
  unfold element in El. destruct (Z.ltb_spec (row c) 0) as [|_]; [lia|].
  replace (S (Z.to_nat (row c)) - length rows) with 0 by lia. cbn [repeat]. rewrite app_nil_r. unfold idx at 1. rewrite El. cbn [bind].
  unfold at_index. destruct (Z.ltb_spec (col c) 0) as [|_]; [lia|].
  replace (S (Z.to_nat (col c)) - length l) with 0 by lia. cbn [repeat]. rewrite app_nil_r. unfold idx. rewrite Hl by lia. cbn [bind].
  destruct c as [i k]. cbn [row col] in *. rewrite Hf. cbn [bind]. eexists. split; [reflexivity|]. split.
  - eexists. split; [reflexivity|]. rewrite set_row_length. split; [exact Lr|]. apply Forall_set_row; [exact Fr|].
    eexists. split; [reflexivity|]. rewrite set_row_length. exact Ll.
  - intros c' Hc'. specialize (Ha c' Hc'). unfold grid_at, element in *. destruct Hc' as [Hr' Hc'].
    destruct (Z.ltb_spec (row c') 0); [lia|]. destruct (Z.eq_dec (row c') i) as [E|E].
    + rewrite E. rewrite set_row_same by (apply nth_error_Some; congruence). rewrite E, El in Ha.
      destruct (Z.ltb_spec (col c') 0); [lia|]. destruct (Z.eq_dec (col c') k) as [E2|E2].
      * rewrite E2, set_row_same by lia. unfold cell_eqb. cbn [row col]. rewrite E, E2, !Z.eqb_refl. reflexivity.
      * rewrite set_row_other by lia. rewrite Ha. unfold cell_eqb. cbn [row col]. destruct (Z.eqb_spec (col c') k); [lia|]. rewrite andb_false_r. reflexivity.
    + rewrite set_row_other by lia. rewrite Ha. unfold cell_eqb. cbn [row col]. destruct (Z.eqb_spec (row c') i); [lia|]. reflexivity.
Qed.

(** ** Patches *)

Definition patch_value (p : dpatch) : json :=
  JObj ([(lit "activity", activity_json (p_act (dp p)));
         (lit "edges", JObj [(lit "Bottom", JStr (edge_name (b_bottom (db p)))); (lit "Left", JStr (edge_name (b_left (db p))));
                            (lit "Right", JStr (edge_name (b_right (db p)))); (lit "Top", JStr (edge_name (b_top (db p))))])]
        ++ match p_op (dp p) with Some n => [(lit "operation_id", JStr (print_N n))] | None => [] end
        ++ [(lit "patch_type", JStr (type_name (p_type (dp p)))); (lit "text", JStr (patch_text (dp p)))]).
Lemma patch_json_ok : forall p, patch_json p = Ok (patch_value p).
Proof. intros p. unfold patch_json, patch_value. destruct (p_op (dp p)); reflexivity. Qed.

Definition tile_value (t : tile) : json := match t with Some p => patch_value p | None => JNull end.

Lemma draw_shows : forall far s l j F, shows far j F -> (forall c, on_lattice far c -> F c = JNull \/ F c = tile_value (tile_at s c)) ->
  (forall c t, In (c, t) l -> on_lattice far c /\ t = tile_at s c) ->
  exists j' F', foldM draw_tile l j = Ok j' /\ shows far j' F' /\
    forall c, on_lattice far c -> (F' c = JNull \/ F' c = tile_value (tile_at s c))
      /\ (F c = tile_value (tile_at s c) \/ (exists t, In (c, t) l) -> F' c = tile_value (tile_at s c)).
Proof.
  intros far s. induction l as [|[c t] l IH]; intros j F S HF Hl.
  - exists j, F. split; [reflexivity|]. split; [exact S|]. intros c Hc. split; [auto|]. intros [X|[t []]]. exact X.
  - destruct (Hl c t) as [Hc ->]; [now left|]. cbn [foldM]. unfold draw_tile at 1. cbn [fst snd].
    assert (Hl' : forall c t, In (c, t) l -> on_lattice far c /\ t = tile_at s c) by (intros; apply Hl; now right).
    destruct (tile_at s c) as [p|] eqn:Tc.
    + rewrite patch_json_ok. cbn [bind]. destruct (at_cell_shows far j F c (fun _ => Ok (patch_value p)) _ S Hc eq_refl) as (j1 & -> & S1). cbn [bind].
      edestruct (IH j1 _ S1) as (j2 & F2 & E2 & S2 & H2).
      * intros c' Hc'. cbn beta. destruct (cell_eqb c' c) eqn:Eq; [|auto]. apply cell_eqb_eq in Eq. subst c'. rewrite Tc. auto.
      * exact Hl'.
      * exists j2, F2. split; [exact E2|]. split; [exact S2|]. intros c' Hc'. destruct (H2 c' Hc') as [A B]. split; [exact A|]. intros X. apply B. cbn beta.
        destruct (cell_eqb c' c) eqn:Eq.
        -- apply cell_eqb_eq in Eq. subst c'. rewrite Tc. auto.
        -- destruct X as [X|[t' [X|X]]]; [auto| |right; eauto]. injection X as X _. subst c'. rewrite (proj2 (cell_eqb_eq _ _) eq_refl) in Eq. discriminate.
    + cbn [bind]. destruct (IH j F S HF Hl') as (j2 & F2 & E2 & S2 & H2). exists j2, F2. split; [exact E2|]. split; [exact S2|].
      intros c' Hc'. destruct (H2 c' Hc') as [A B]. split; [exact A|]. intros [X|[t' [X|X]]]; [auto| |apply B; right; eauto].
      injection X as X _. subst c'. apply B. left. destruct (HF c Hc) as [Y|Y]; [|exact Y]. rewrite Y, Tc. reflexivity.
Qed.

(** ** Factories *)

Definition noted (n : N) (j : json) : json :=
  let v := JStr (lit "Time to next magic state:" ++ print_N n) in
  match j with JObj l => JObj (fields_put (lit "text") v l) | _ => JObj [(lit "text", v)] end.
(** [k] is the number of the region whose first tile is [c]. *)
Definition front_of (L : layout) (c : cell) (k : nat) : Prop := exists sc r, nth_error (l_regions L) k = Some (sc :: r) /\ sc_cell sc = c.

Lemma annotate_shows : forall far s regions j F k, shows far j F ->
  (forall c, on_lattice far c -> F c = JNull \/ exists l, F c = JObj l) ->
  Forall (fun r => r <> []) regions -> (forall sc, In sc (concat regions) -> on_lattice far (sc_cell sc)) -> NoDup (map sc_cell (concat regions)) ->
  k + length regions <= length (s_timers s) ->
  exists j' F' k', foldM (annotate_region s) regions (j, k) = Ok (j', k') /\ shows far j' F' /\
    forall c, on_lattice far c ->
      (forall i sc r n, nth_error regions i = Some (sc :: r) -> sc_cell sc = c -> nth_error (s_timers s) (k + i) = Some n -> F' c = noted n (F c))
      /\ ((forall i sc r, nth_error regions i = Some (sc :: r) -> sc_cell sc <> c) -> F' c = F c).
Proof.
  intros far s. induction regions as [|r regions IH]; intros j F k S HF Hn Hon Hd Hk.
  - exists j, F, k. split; [reflexivity|]. split; [exact S|]. intros c Hc. split; [intros [|i]; discriminate|auto].
  - apply Forall_cons_iff in Hn. destruct Hn as [Hr Hn]. destruct r as [|sc r]; [congruence|]. cbn [foldM]. unfold annotate_region at 1. cbn [bind].
    cbn [length] in Hk. unfold idx at 1. destruct (nth_error (s_timers s) k) as [n|] eqn:En; [|apply nth_error_None in En; lia]. cbn [bind].
    assert (Ho : on_lattice far (sc_cell sc)) by (apply Hon; cbn; auto).
    assert (Pf : put_field (lit "text") (JStr (lit "Time to next magic state:" ++ print_N n)) (F (sc_cell sc)) = Ok (noted n (F (sc_cell sc)))).
    { destruct (HF _ Ho) as [->|[l ->]]; reflexivity. }
    destruct (at_cell_shows far j F (sc_cell sc) _ _ S Ho Pf) as (j1 & -> & S1). cbn [bind].
    cbn [concat app map] in Hd. apply NoDup_cons_iff in Hd. destruct Hd as [Hd1 Hd2].
    edestruct (IH j1 _ (Datatypes.S k) S1) as (j2 & F2 & k2 & E2 & S2 & H2).
    + intros c Hc. cbn beta. destruct (cell_eqb c (sc_cell sc)); [|auto]. right. unfold noted. destruct (F (sc_cell sc)); eauto.
    + exact Hn.
    + intros x Hx. apply Hon. cbn. right. apply in_app_iff. now right.
    + rewrite map_app in Hd2. apply NoDup_app_parts in Hd2. apply Hd2.
    + lia.
    + exists j2, F2, k2. split; [exact E2|]. split; [exact S2|]. intros c Hc. destruct (H2 c Hc) as [A B]. cbn beta in A, B. split.
      * intros [|i] sc' r' n' Ei Ec Et.
        -- cbn in Ei. injection Ei as -> ->. replace (k + 0) with k in Et by lia. assert (n' = n) by congruence. subst n'.
           rewrite B; [rewrite <- Ec, (proj2 (cell_eqb_eq _ _) eq_refl); reflexivity|].
           intros i sc2 r2 Ei Ec2. apply Hd1. rewrite map_app. apply in_app_iff. right. rewrite Ec, <- Ec2. apply in_map. apply in_concat. exists (sc2 :: r2).
           split; [eapply nth_error_In; eauto|now left].
        -- cbn in Ei. rewrite (A i sc' r' n' Ei Ec); [|rewrite <- Et; f_equal; lia].
           destruct (cell_eqb c (sc_cell sc)) eqn:Eq; [|reflexivity]. apply cell_eqb_eq in Eq. exfalso. apply Hd1. rewrite map_app. apply in_app_iff. right.
           rewrite <- Eq, <- Ec. apply in_map. apply in_concat. exists (sc' :: r'). split; [eapply nth_error_In; eauto|now left].
      * intros Nf. rewrite B; [|intros i sc' r' Ei; apply (Nf (Datatypes.S i) sc' r' Ei)].
        destruct (cell_eqb c (sc_cell sc)) eqn:Eq; [|reflexivity]. apply cell_eqb_eq in Eq. exfalso. apply (Nf 0 sc r eq_refl). auto.
Qed.

(** ** Whole slices *)

(** Every factory has a tile. *)
Definition real_regions (L : layout) : Prop := Forall (fun r => r <> []) (l_regions L).

Lemma slice_json_shows : forall L s, layout_wf L -> real_regions L -> timed L s ->
  exists j F, slice_json L s = Ok j /\ shows (l_furthest L) j F /\
    forall c, on_lattice (l_furthest L) c ->
      (forall k n, front_of L c k -> nth_error (s_timers s) k = Some n -> F c = noted n (tile_value (tile_at s c)))
      /\ ((forall k, ~ front_of L c k) -> F c = tile_value (tile_at s c)).
Proof.
  intros L s W Rr [Sz Tm]. unfold slice_json.
  destruct (draw_shows (l_furthest L) s (tiles s) _ _ (shows_blank _ (lw_far _ W))) as (j & F & -> & S & H).
  - auto.
  - intros c t Hct. apply (tiles_In _ _ _ _ Sz) in Hct. exact Hct.
  - cbn [bind].
    assert (HF : forall c, on_lattice (l_furthest L) c -> F c = tile_value (tile_at s c)).
    { intros c Hc. apply (H c Hc). right. exists (tile_at s c). apply (tiles_In _ _ _ _ Sz). auto. }
    unfold annotate.
    assert (Tk : forall c, In c (region_cells L) -> In c (taken L)) by (intros c Hc; unfold taken; rewrite !in_app_iff; auto).
    destruct (annotate_shows (l_furthest L) s (l_regions L) j F 0 S) as (j' & F' & k' & -> & S' & H').
    + intros c Hc. rewrite HF by exact Hc. destruct (tile_at s c); [right; eexists; reflexivity|now left].
    + exact Rr.
    + intros sc Hsc. apply (lw_on _ W). apply Tk. unfold region_cells. now apply in_map.
    + pose proof (lw_disjoint _ W) as D. unfold taken in D. apply NoDup_app_parts in D. destruct D as (_ & D & _). apply NoDup_app_parts in D. destruct D as (_ & D & _). apply NoDup_app_parts in D. apply D.
    + rewrite Tm, (lw_times _ W). lia.
    + cbn [bind]. exists j', F'. split; [reflexivity|]. split; [exact S'|]. intros c Hc. destruct (H' c Hc) as [A B]. rewrite HF in A, B by exact Hc. split.
      * intros k n (sc & r & E1 & E2) En. apply (A k sc r n E1 E2 En).
      * intros Nf. apply B. intros i sc r E1 E2. apply (Nf i). exists sc, r. auto.
Qed.

Lemma front_dec : forall L c, (exists k, front_of L c k) \/ forall k, ~ front_of L c k.
Proof.
  intros L c. destruct (existsb (fun r => match r with [] => false | sc :: _ => cell_eqb (sc_cell sc) c end) (l_regions L)) eqn:E.
  - left. apply existsb_exists in E. destruct E as ([|sc r] & H1 & H2); [discriminate|]. apply cell_eqb_eq in H2. apply In_nth_error in H1. destruct H1 as [k H1].
    exists k, sc, r. auto.
  - right. intros k (sc & r & H1 & H2). assert (X : exists x, In x (l_regions L) /\ match x with [] => false | sc :: _ => cell_eqb (sc_cell sc) c end = true).
    { exists (sc :: r). split; [eapply nth_error_In; eauto|]. rewrite H2. apply cell_eqb_eq. reflexivity. }
    apply existsb_exists in X. congruence.
Qed.

(** ** No escapes are needed *)

Lemma body_of : forall t, forallb (fun c => (32 <=? N_of_ascii c) && negb (N_of_ascii c =? 34) && negb (N_of_ascii c =? 92))%N t = true -> body t.
Proof.
  induction t as [|c t IH]; intros H; [constructor|]. cbn [forallb] in H. apply andb_true_iff in H. destruct H as [H1 H2].
  apply andb_true_iff in H1. destruct H1 as [H1 H3]. apply andb_true_iff in H1. destruct H1 as [H1 H4].
  constructor; [apply N.leb_le; exact H1|intros E; rewrite E in H4; discriminate|intros E; rewrite E in H3; discriminate|auto].
Qed.
Lemma body_app : forall a b, body a -> body b -> body (a ++ b).
Proof. intros a b Ha Hb. induction Ha; cbn [app]; [exact Hb|apply bd_char|apply bd_escape|apply bd_code]; auto. Qed.
Lemma body_print : forall n, body (print_N n).
Proof.
  intros n. apply body_of. apply forallb_forall. intros c Hc. pose proof (print_N_digits n) as D. rewrite Forall_forall in D. specialize (D c Hc).
  unfold is_digit in D. apply andb_true_iff in D. destruct D as [D1 D2]. apply N.leb_le in D1, D2.
  rewrite !andb_true_iff, !negb_true_iff, !N.eqb_neq, N.leb_le. lia.
Qed.
Lemma body_edge : forall b, body (edge_name b).
Proof. intros [t a]. apply body_of. destruct t, a; reflexivity. Qed.
Lemma patch_value_plain : forall p, plain (patch_value p).
Proof.
  intros p. constructor. 
  assert (A : plain (activity_json (p_act (dp p)))).
  { constructor. constructor; [|constructor]. split; [apply body_of; reflexivity|]. cbn [snd]. destruct (p_act (dp p)); constructor; apply body_of; reflexivity. }
  apply Forall_app. split.
  - constructor; [split; [apply body_of; reflexivity|exact A]|]. constructor; [|constructor]. split; [apply body_of; reflexivity|]. cbn [snd].
    constructor. repeat (constructor; [split; [apply body_of; reflexivity|constructor; apply body_edge]|]). constructor.
  - apply Forall_app. split.
    + destruct (p_op (dp p)) as [n|]; constructor; [|constructor]. split; [apply body_of; reflexivity|constructor; apply body_print].
    + constructor; [split; [apply body_of; reflexivity|]|].
      * constructor. apply body_of. destruct (p_type (dp p)); reflexivity.
      * constructor; [|constructor]. split; [apply body_of; reflexivity|]. constructor. cbn [snd]. unfold patch_text.
        destruct (p_id (dp p)); [apply body_app; [apply body_of; reflexivity|apply body_print]|].
        destruct (_ || _)%bool; apply body_of; reflexivity.
Qed.
Lemma fields_put_plain : forall k v l, body k -> plain v -> Forall (fun kv => body (fst kv) /\ plain (snd kv)) l ->
  Forall (fun kv => body (fst kv) /\ plain (snd kv)) (fields_put k v l).
Proof.
  intros k v l Hk Hv. induction l as [|[k' v'] l IH]; intros H; cbn [fields_put]; [constructor; auto|].
  apply Forall_cons_iff in H. destruct H as [H1 H2]. destruct (text_eqb k k'); [constructor; auto|]. destruct (text_ltb k k'); constructor; auto.
Qed.
Lemma noted_plain : forall n j, plain j -> plain (noted n j).
Proof.
  intros n j H. assert (B : plain (JStr (lit "Time to next magic state:" ++ print_N n))) by (constructor; apply body_app; [apply body_of; reflexivity|apply body_print]).
  assert (K : body (lit "text")) by (apply body_of; reflexivity).
  unfold noted. destruct j; try (constructor; constructor; [split; [exact K|exact B]|constructor]).
  inversion H; subst. constructor. apply fields_put_plain; auto.
Qed.
Lemma shows_plain : forall far j F, shows far j F -> (forall c, on_lattice far c -> plain (F c)) -> plain j.
Proof.
  intros far j F S H. pose proof S as [(rows & -> & Lr & Fr) _]. constructor. apply Forall_forall. intros r Hr.
  apply In_nth_error in Hr. destruct Hr as [i Hi]. assert (Hi' : i < length rows) by (apply nth_error_Some; congruence).
  destruct (shows_row far _ F (Z.of_nat i) S) as (l & El & Ll & Hl); [lia|]. unfold element in El. destruct (Z.ltb_spec (Z.of_nat i) 0); [lia|].
  rewrite Nat2Z.id, Hi in El. injection El as ->. constructor. apply Forall_forall. intros x Hx. apply In_nth_error in Hx. destruct Hx as [k Hk].
  assert (Hk' : k < length l) by (apply nth_error_Some; congruence). specialize (Hl (Z.of_nat k)). rewrite Nat2Z.id, Hk in Hl.
  assert (E : Some x = Some (F (mkCell (Z.of_nat i) (Z.of_nat k)))) by (apply Hl; lia). injection E as ->. apply H. unfold on_lattice. cbn. lia.
Qed.
Lemma slice_json_plain : forall L s, layout_wf L -> real_regions L -> timed L s -> exists j, slice_json L s = Ok j /\ plain j.
Proof.
  intros L s W R T. destruct (slice_json_shows L s W R T) as (j & F & E & S & H). exists j. split; [exact E|]. eapply shows_plain; [exact S|].
  intros c Hc. destruct (H c Hc) as [A B].
  assert (P : plain (tile_value (tile_at s c))) by (destruct (tile_at s c); [apply patch_value_plain|constructor]).
  destruct (front_dec L c) as [[k Hk]|Hk]; [|now rewrite B].
  destruct (nth_error (s_timers s) k) as [n|] eqn:En.
  - rewrite (A k n Hk En). now apply noted_plain.
  - exfalso. apply nth_error_None in En. destruct Hk as (sc & r & Hk & _). assert (k < length (l_regions L)) by (apply nth_error_Some; congruence).
    destruct T as [_ T]. rewrite T, (lw_times _ W) in En. lia.
Qed.
