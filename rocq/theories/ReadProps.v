(** C55: reading LLI programs; C56: lists of observables. *)
From Verif Require Import Base TextModel TextSpec TextProofs PatchesModel InstrModel InstrSpec InstrProofs ReadModel.

(** ** Vocabulary *)

Definition newline : ascii := "010"%char.
Definition not_blank (l : text) : bool := match l with [] => false | _ => true end.
(** The instructions written on the lines, blank lines skipped. *)
Definition written_on (lines : list text) (is : list instr) : Prop :=
  Forall2 (fun l i => parse_instr l = Ok i) (filter not_blank lines) is.
Definition declares (i : instr) : bool := match op i with Declare _ => true | _ => false end.
Definition declared (i : instr) : list N := match op i with Declare ids => ids | _ => [] end.

(** ** In-memory reader *)

Definition keep (c : computation) (is : list instr) : list instr :=
  instructions c ++ filter (fun i => negb (declares i)) is.

Lemma parse_lines_spec : forall lines got c c',
  parse_lines lines got c = Ok c' <->
  exists is, written_on lines is
    /\ (length (filter declares is) + (if got then 1 else 0) <= 1)%nat
    /\ instructions c' = keep c is
    /\ core_qubits c' = match filter declares is with [] => core_qubits c | d :: _ => declared d end.
Proof.
  unfold written_on, keep. induction lines as [|l lines IH]; intros got c c'.
  - cbn. split.
    + intros H. inversion H; subst. exists []. cbn. rewrite app_nil_r. repeat split; auto. destruct got; lia.
    + intros (is & H & _ & H1 & H2). inversion H; subst. cbn in *. rewrite app_nil_r in H1.
      destruct c, c'; cbn in *; congruence.
  - destruct l as [|a l]; [cbn [parse_lines filter not_blank]; apply IH|].
    cbn [parse_lines filter not_blank]. set (line := a :: l). clearbody line.
    destruct (parse_instr line) as [i|e|u|] eqn:E; cbn [bind];
      try (split; [discriminate|intros (is & H & _); inversion H; congruence]).
    destruct (declares i) eqn:Ed.
    + assert (exists ids, op i = Declare ids) as [ids Ei] by (unfold declares in Ed; destruct (op i); try discriminate; eauto).
      rewrite Ei. destruct got.
      * split; [discriminate|]. intros (is & H & Hl & _). inversion H; subst.
        assert (y = i) by congruence. subst y. cbn in Hl. rewrite Ed in Hl. cbn in Hl. lia.
      * rewrite IH. cbn [instructions core_qubits]. split.
        -- intros (is & H1 & H2 & H3 & H4). exists (i :: is). cbn [filter]. rewrite Ed. cbn [negb length].
           assert (Hz : filter declares is = []) by (destruct (filter declares is); [auto|cbn in H2; lia]).
           rewrite Hz in *. cbn in *. repeat split; auto. unfold declared. rewrite Ei. auto.
        -- intros (is & H1 & H2 & H3 & H4). inversion H1; subst. assert (y = i) by congruence. subst y.
           exists l'. cbn [filter] in *. rewrite Ed in *. cbn [negb length] in *.
           assert (Hz : filter declares l' = []) by (destruct (filter declares l'); [auto|cbn in H2; lia]).
           rewrite Hz in *. cbn in *. repeat split; auto. unfold declared in H4. rewrite Ei in H4. auto.
    + assert (P : (match op i with Declare ids => if got then Throw ParseException
                       else parse_lines lines true (mkComp ids (instructions c))
                   | _ => parse_lines lines got (mkComp (core_qubits c) (instructions c ++ [i])) end)
                  = parse_lines lines got (mkComp (core_qubits c) (instructions c ++ [i]))).
      { unfold declares in Ed. destruct (op i); try reflexivity. discriminate. }
      rewrite P, IH. cbn [instructions core_qubits]. split.
      * intros (is & H1 & H2 & H3 & H4). exists (i :: is). cbn [filter]. rewrite Ed. cbn [negb].
        split; [constructor; auto|]. split; auto. split; auto. rewrite H3, <- app_assoc. reflexivity.
      * intros (is & H1 & H2 & H3 & H4). inversion H1; subst. assert (y = i) by congruence. subst y.
        exists l'. cbn [filter] in *. rewrite Ed in *. cbn [negb] in *.
        split; [auto|]. split; auto. split; auto. rewrite H3, <- app_assoc. reflexivity.
Qed.

Lemma split_lines : forall lines, Forall (fun l => ~ In newline l) lines ->
  filter not_blank (split_on (intercalate newline lines) newline) = filter not_blank lines.
Proof.
  intros lines H. destruct lines as [|l lines]; [reflexivity|].
  destruct l as [|a l], lines as [|m lines]; try reflexivity;
    (rewrite split_on_intercalate; [reflexivity|discriminate|discriminate|auto]).
Qed.

(** C55, in-memory reader: a program is accepted exactly when every non-blank
    line is an instruction and at most one of them declares qubits.  The result
    is all other instructions, in order, and the declared qubits. *)
Theorem C55_program : forall lines c, Forall (fun l => ~ In newline l) lines ->
  (parse_program (intercalate newline lines) = Ok c <->
   exists is, written_on lines is /\ (length (filter declares is) <= 1)%nat
     /\ instructions c = filter (fun i => negb (declares i)) is
     /\ core_qubits c = concat (map declared is)).
Proof.
  intros lines c Hl. unfold parse_program. change (ascii_of_nat 10) with newline.
  rewrite parse_lines_spec. unfold written_on. rewrite split_lines by auto. unfold keep. cbn [instructions core_qubits app].
  assert (D : forall is, (length (filter declares is) <= 1)%nat ->
     match filter declares is with [] => [] | d :: _ => declared d end = concat (map declared is)).
  { assert (Z : forall is, filter declares is = [] -> concat (map declared is) = []).
    { induction is as [|i is IH]; cbn; auto. destruct (declares i) eqn:E; [discriminate|].
      intros H. rewrite IH by auto. unfold declares in E. unfold declared. destruct (op i); try reflexivity. discriminate. }
    induction is as [|i is IH]; cbn; auto. destruct (declares i) eqn:E; cbn.
    - intros H. rewrite Z, app_nil_r; auto. destruct (filter declares is); [auto|cbn in H; lia].
    - intros H. rewrite IH by auto. unfold declares in E. unfold declared at 2. destruct (op i); try reflexivity. discriminate. }
  split.
  - intros (is & H1 & H2 & H3 & H4). exists is. assert (H2' : (length (filter declares is) <= 1)%nat) by lia.
    rewrite <- (D is H2'). auto.
  - intros (is & H1 & H2 & H3 & H4). exists is. rewrite (D is H2). repeat split; auto. lia.
Qed.
Print Assumptions C55_program.

(** C55: declaring qubits twice is an error, whatever else is in the program. *)
Theorem C55_two_declarations : forall lines is, Forall (fun l => ~ In newline l) lines ->
  written_on lines is -> (2 <= length (filter declares is))%nat ->
  forall c, parse_program (intercalate newline lines) <> Ok c.
Proof.
  intros lines is Hl Hw H2 c E. apply C55_program in E as (is' & Hw' & H & _); auto.
  assert (is' = is); [|subst; lia].
  clear - Hw Hw'. unfold written_on in *. revert is Hw. induction Hw'; intros is Hw; inversion Hw; subst; auto.
  f_equal; [congruence|auto].
Qed.
Print Assumptions C55_two_declarations.

(** ** The file stream *)

Lemma advance_instruction_spec : forall lines next r,
  advance_instruction lines = Ok (next, r) ->
  (length r <= length lines)%nat /\ (next <> None -> length r < length lines)%nat /\
  match next with
  | None => filter not_blank lines = [] /\ r = []
  | Some i => exists l, filter not_blank lines = l :: filter not_blank r /\ parse_instr l = Ok i
  end.
Proof.
  induction lines as [|l lines IH]; intros next r H; cbn in H.
  - inversion H; subst. cbn. repeat split; auto. congruence.
  - destruct l as [|a l].
    + destruct (IH _ _ H) as (H1 & H2 & H3). cbn [length filter not_blank]. repeat split; try lia.
      destruct next; auto.
    + cbn [filter not_blank length]. set (line := a :: l) in *. clearbody line.
      destruct (parse_instr line) as [i|[]|u|] eqn:E; inversion H; subst. repeat split; try lia. eauto.
Qed.

Lemma advance_instruction_ok : forall lines is, written_on lines is ->
  match is with
  | [] => advance_instruction lines = Ok (None, [])
  | i :: is' => exists r, advance_instruction lines = Ok (Some i, r) /\ written_on r is'
  end.
Proof.
  unfold written_on. induction lines as [|l lines IH]; intros is H; cbn in H.
  - inversion H; subst. reflexivity.
  - destruct l as [|a l]; [cbn [advance_instruction]; apply IH; auto|].
    cbn [not_blank] in H. cbn [advance_instruction]. set (line := a :: l) in *. clearbody line.
    inversion H; subst. rewrite H2. eauto.
Qed.

Lemma drain_ok : forall fuel core i is r, written_on r is -> (length r < fuel)%nat ->
  drain fuel (mkFS core (Some i) r) = Ok (i :: is).
Proof.
  induction fuel as [|f IH]; intros core i is r Hw Hl; [lia|].
  cbn [drain fs_next]. unfold get_next_instruction. cbn [fs_next fs_lines fs_core].
  pose proof (advance_instruction_ok r is Hw) as H. destruct is as [|j is].
  - rewrite H. cbn [bind]. destruct f; reflexivity.
  - destruct H as (r' & H & Hw'). rewrite H. cbn [bind].
    destruct (advance_instruction_spec _ _ _ H) as (_ & Hlt & _).
    rewrite (IH core j is r') by (auto; pose proof (Hlt ltac:(discriminate)); lia). reflexivity.
Qed.

Lemma drain_back : forall fuel core next r l, drain fuel (mkFS core next r) = Ok l ->
  match next with
  | None => l = []
  | Some i => exists is, l = i :: is /\ written_on r is
  end.
Proof.
  induction fuel as [|f IH]; intros core next r l H; destruct next as [i|]; cbn in H; try (inversion H; auto; fail).
  unfold get_next_instruction in H. cbn [fs_next fs_lines fs_core] in H.
  destruct (advance_instruction r) as [[next r']|e|u|] eqn:E; cbn [bind] in H; try discriminate.
  destruct (drain f (mkFS core next r')) as [l'|e|u|] eqn:E'; cbn [bind] in H; try discriminate.
  inversion H; subst l. exists l'. split; auto.
  destruct (advance_instruction_spec _ _ _ E) as (_ & _ & Hn).
  apply IH in E'. unfold written_on. destruct next as [j|].
  - destruct E' as (is & -> & Hw). destruct Hn as (ln & -> & Hp). constructor; auto.
  - destruct Hn as (-> & _). subst. constructor.
Qed.

(** C55, streaming reader: reading a file to the end succeeds exactly when every
    non-blank line is an instruction and the first one declares the qubits; it
    delivers all instructions after the first, in file order, each once. *)
Theorem C55_file : forall lines core l,
  read_file lines = Ok (core, l) <->
  exists d, op d = Declare core /\ written_on lines (d :: l).
Proof.
  intros lines core l. unfold read_file. split.
  - intros H. destruct (open_stream lines) as [s|e|u|] eqn:Eo; cbn [bind] in H; try discriminate.
    destruct (drain (S (length lines)) s) as [l'|e|u|] eqn:Ed; cbn [bind] in H; try discriminate.
    inversion H; subst core l'. clear H. unfold open_stream in Eo.
    destruct (advance_instruction lines) as [[[d|] r]|e|u|] eqn:E1; cbn [bind] in Eo; try discriminate.
    destruct (advance_instruction r) as [[next r']|e|u|] eqn:E2; cbn [bind] in Eo; try discriminate.
    destruct (op d) eqn:Eop; try discriminate.
    inversion Eo; subst s. cbn [fs_core] in *. exists d. split; auto.
    destruct (advance_instruction_spec _ _ _ E1) as (_ & _ & (ln & Hln & Hp)).
    destruct (advance_instruction_spec _ _ _ E2) as (_ & _ & H2).
    unfold written_on. rewrite Hln. constructor; auto. apply drain_back in Ed. destruct next as [i|].
    + destruct Ed as (is & -> & Hw). destruct H2 as (ln2 & -> & Hp2). constructor; auto.
    + destruct H2 as (-> & _). subst. constructor.
  - intros (d & Hd & Hw). unfold open_stream.
    destruct (advance_instruction_ok lines (d :: l) Hw) as (r & E1 & Hw1). rewrite E1. cbn [bind].
    destruct (advance_instruction_spec _ _ _ E1) as (_ & Hl1 & _).
    pose proof (Hl1 ltac:(discriminate)) as Hlt.
    pose proof (advance_instruction_ok r l Hw1) as E2. destruct l as [|i l].
    + rewrite E2. cbn [bind]. rewrite Hd. cbn [bind]. cbn. reflexivity.
    + destruct E2 as (r2 & E2 & Hw2). rewrite E2. cbn [bind]. rewrite Hd. cbn [bind fs_core].
      destruct (advance_instruction_spec _ _ _ E2) as (_ & Hl2 & _).
      pose proof (Hl2 ltac:(discriminate)) as Hlt2.
      rewrite (drain_ok _ _ _ _ _ Hw2) by lia. reflexivity.
Qed.
Print Assumptions C55_file.

Definition C55_lines : list text :=
  [lit "DeclareLogicalQubitPatches 0,1"; []; lit "MeasureSinglePatch 0 Z"; lit "MultiBodyMeasure 0:X,1:Z"].
Example C55_ex : exists l, read_file C55_lines = Ok ([0; 1]%N, l) /\ length l = 2%nat
  /\ parse_program (intercalate newline C55_lines) = Ok (mkComp [0; 1]%N l).
Proof. eexists. split; [vm_compute; reflexivity|]. split; vm_compute; reflexivity. Qed.

(** The two readers disagree on a second declaration: the streaming reader hands
    it to the compiler as an instruction. *)
Theorem C55_refuted_second_declaration : exists lines core l,
  read_file lines = Ok (core, l) /\ filter declares l <> []
  /\ forall c, parse_program (intercalate newline lines) <> Ok c.
Proof.
  exists [lit "DeclareLogicalQubitPatches 0"; lit "DeclareLogicalQubitPatches 1"]. do 2 eexists.
  split; [vm_compute; reflexivity|]. split; [discriminate|].
  intros c H. vm_compute in H. discriminate.
Qed.
Print Assumptions C55_refuted_second_declaration.

(** ** C56: observables *)

(** The value given last for [k] in a list of pairs. *)
Fixpoint last_for {A} (k : N) (l : list (N * A)) : option A :=
  match l with
  | [] => None
  | (k', v) :: r => match last_for k r with Some w => Some w | None => if N.eqb k k' then Some v else None end
  end.
(** The keys of a list of pairs in order of first mention. *)
Fixpoint first_mentions (seen : list N) (l : list N) : list N :=
  match l with
  | [] => []
  | k :: r => if existsb (N.eqb k) seen then first_mentions seen r else k :: first_mentions (k :: seen) r
  end.

Lemma omap_lookup {A} : forall (k : N) (v : A) m j, NoDup (map fst m) ->
  (In (j, v) (omap_insert k v m) <-> j = k \/ (j <> k /\ In (j, v) m)) /\
  forall w, j <> k -> (In (j, w) (omap_insert k v m) <-> In (j, w) m).
Proof.
  intros k v m j. induction m as [|[k' v'] m IH]; intros Hn; cbn [omap_insert].
  - split; [|intros w Hj]; cbn; split; intros H; try tauto.
    + destruct H as [H|[]]. inversion H; auto.
    + destruct H as [->|[_ []]]. auto.
    + destruct H as [H|[]]. inversion H; subst; congruence.
  - inversion Hn as [|? ? Hni Hn']; subst. destruct (IH Hn') as [I1 I2].
    destruct (N.eqb_spec k k') as [->|Hk].
    + split; [|intros w Hj]; cbn; split; intros H.
      * destruct H as [H|H]; [inversion H; auto|]. right. split; [|auto]. intros ->. apply Hni.
        apply in_map_iff. exists (k', v). auto.
      * destruct H as [->|[Hj [H|H]]]; [auto| |auto]. inversion H; subst; congruence.
      * destruct H as [H|H]; [inversion H; congruence|auto].
      * destruct H as [H|H]; [inversion H; congruence|auto].
    + split; [|intros w Hj]; cbn.
      * rewrite I1. split; intros H.
        -- destruct H as [H|[H|[H1 H2]]]; [inversion H; subst; right; split; auto|auto|auto].
        -- destruct H as [->|[Hj [H|H]]]; auto.
      * rewrite I2 by auto. tauto.
Qed.

Lemma omap_keys_in {A} : forall (k : N) (v : A) m j,
  In j (map fst (omap_insert k v m)) <-> j = k \/ In j (map fst m).
Proof.
  intros k v m j. rewrite omap_insert_keys. destruct (memN k (map fst m)) eqn:E.
  - split; auto. intros [->|H]; auto. apply memN_In; auto.
  - rewrite in_app_iff. cbn. intuition.
Qed.

(** C56: in the list of observables of a multi-patch measurement, every patch
    that is mentioned appears once, in order of first mention, with the operator
    given for it last; the text is rejected if any entry is not a pair. *)
Theorem C56_observables : forall entries pairs,
  Forall2 (fun e kv => parse_pair e = Ok kv) entries pairs ->
  entries <> [] -> entries <> [[]] -> Forall (fun e => ~ In ","%char e) entries ->
  exists m, parse_multi_dict (intercalate "," entries) = Ok m
    /\ map fst m = first_mentions [] (map fst pairs)
    /\ forall k p, In (k, p) m <-> last_for k pairs = Some p.
Proof.
  intros entries pairs H2 Hne Hne' Hc. unfold parse_multi_dict. rewrite split_on_intercalate by auto.
  clear Hne Hne' Hc.
  assert (G : forall m0, NoDup (map fst m0) -> exists m,
     foldM (fun m pr => do kv <- parse_pair pr ;; Ok (omap_insert (fst kv) (snd kv) m)) entries m0 = Ok m
     /\ map fst m = map fst m0 ++ first_mentions (map fst m0) (map fst pairs)
     /\ forall k p, In (k, p) m <-> last_for k pairs = Some p \/ (last_for k pairs = None /\ In (k, p) m0)).
  { induction H2 as [|e [k v] entries pairs He H2 IH]; intros m0 Hn.
    - exists m0. cbn. rewrite app_nil_r. split; [auto|]. split; [auto|]. intros k p. split; [auto|].
      intros [H|[_ H]]; [discriminate|auto].
    - cbn [foldM]. rewrite He. cbn [bind fst snd].
      destruct (IH (omap_insert k v m0)) as (m & E & Hk & Hv); [apply omap_insert_nodup; auto|].
      exists m. split; [exact E|]. split.
      + rewrite Hk. cbn [map fst first_mentions]. rewrite omap_insert_keys.
        unfold memN. destruct (existsb (N.eqb k) (map fst m0)) eqn:E1; [auto|].
        rewrite <- app_assoc. cbn [app]. f_equal. f_equal.
        assert (FM : forall l a b, (forall x, In x a <-> In x b) -> first_mentions a l = first_mentions b l).
        { induction l as [|x l IHl]; intros a b Hab; cbn; auto.
          assert (existsb (N.eqb x) a = existsb (N.eqb x) b) as ->.
          { destruct (existsb (N.eqb x) a) eqn:X1, (existsb (N.eqb x) b) eqn:X2; auto;
              [apply existsb_exists in X1 as (y & Hy & Hxy)|apply existsb_exists in X2 as (y & Hy & Hxy)];
              apply Hab in Hy; [assert (existsb (N.eqb x) b = true)|assert (existsb (N.eqb x) a = true)];
              try congruence; apply existsb_exists; eauto. }
          destruct (existsb (N.eqb x) b); [auto|]. f_equal. apply IHl. intros y. cbn. rewrite Hab. tauto. }
        apply FM. intros x. rewrite in_app_iff. cbn. intuition.
      + intros j p. rewrite Hv. cbn [last_for].
        destruct (last_for j pairs) as [w|] eqn:El.
        * split; [intros [H|[H _]]; [auto|discriminate]|intros [H|[H _]]; [auto|discriminate]].
        * destruct (N.eqb_spec j k) as [->|Hj].
          -- destruct (omap_lookup k v m0 k Hn) as [O1 O2]. split.
             ++ intros [H|[_ H]]; [discriminate|]. left. f_equal.
                assert (NoDup (map fst (omap_insert k v m0))) as ND by (apply omap_insert_nodup; auto).
                assert (Hv' : In (k, v) (omap_insert k v m0)) by (apply O1; auto).
                clear - H Hv' ND. induction (omap_insert k v m0) as [|[a b] l IHl]; [destruct H|].
                cbn in ND. inversion ND; subst. destruct H as [H|H], Hv' as [H'|H'].
                ** congruence.
                ** inversion H; subst. exfalso. apply H2. apply in_map_iff. exists (k, v). auto.
                ** inversion H'; subst. exfalso. apply H2. apply in_map_iff. exists (k, p). auto.
                ** apply IHl; auto.
             ++ intros [H|[H _]]; [|discriminate]. inversion H; subst. right. split; auto. apply O1. auto.
          -- destruct (omap_lookup k v m0 j Hn) as [O1 O2]. rewrite (O2 p Hj).
             split; [intros [H|[_ H]]; [discriminate|auto]|intros [H|[_ H]]; [discriminate|auto]]. }
  destruct (G [] (NoDup_nil _)) as (m & E & Hk & Hv). exists m. split; [auto|]. split; [auto|].
  intros k p. rewrite Hv. cbn. tauto.
Qed.
Print Assumptions C56_observables.
Example C56_ex : parse_multi_dict (lit "1:X,2:Z,1:Y") = Ok [(1%N, PY); (2%N, PZ)].
Proof. vm_compute. reflexivity. Qed.
