(** C03 (CNOT types and placements), C07, C08, C09, C10. *)
From Coq Require Import QArith.
From Verif Require Import Base TextModel TextSpec TextProofs PatchesModel InstrModel InstrProofs GatesModel GatesSpec GatesProofs.
Open Scope nat_scope.

(** ** C03 *)
Theorem C03_cnot_type_names : forall s t, cnot_type_from_string s = Some t <-> s = cnot_type_to_string t.
Proof. intros s t. rewrite cnot_type_from_iff. unfold names_cnot_type. destruct t; reflexivity. Qed.
Print Assumptions C03_cnot_type_names.
Theorem C03_placement_names : forall s p, placement_from_string s = Some p <-> s = placement_to_string p.
Proof. intros s t. rewrite placement_from_iff. unfold names_placement. destruct t; reflexivity. Qed.
Print Assumptions C03_placement_names.
(** The texts are the documented ones. *)
Theorem C03_documented_names : forall s,
  (forall t, cnot_type_from_string s = Some t <-> names_cnot_type s t) /\
  (forall p, placement_from_string s = Some p <-> names_placement s p).
Proof. intros s. split; intros; [apply cnot_type_from_iff|apply placement_from_iff]. Qed.
Print Assumptions C03_documented_names.
Example C03_ex_cnot : cnot_type_from_string (lit "BellBased") = Some BellBased /\ cnot_type_from_string (lit "bellbased") = None.
Proof. split; reflexivity. Qed.

(** ** C07 *)
Theorem C07_single_qubit : forall dflt ws ws' b reg i tail,
  spaces ws -> spaces ws' -> plain reg -> ~ In ";"%char tail -> (i < 2 ^ 32)%N ->
  parse_gate dflt (line ws (qasm_name b) (ws' ++ operand reg i) tail) = Ok (PGate (GBasic i b)).
Proof.
  intros. rewrite parse_single by assumption.
  rewrite try_parse_qubit_print by (change (2 ^ 63)%N with (2 ^ 32 * 2 ^ 31)%N; nia).
  cbn [bind]. now rewrite N.mod_small.
Qed.
Print Assumptions C07_single_qubit.

Theorem C07_controlled : forall dflt ws ws1 ws2 (isx : bool) r1 r2 c t tail words ct pl,
  spaces ws -> spaces ws1 -> spaces ws2 -> plain r1 -> plain r2 -> ~ In ";"%char tail ->
  (c < 2 ^ 32)%N -> (t < 2 ^ 32)%N ->
  annotated tail words -> first_named names_cnot_type ControlFirst words ct ->
  first_named names_placement dflt words pl ->
  parse_gate dflt (line ws (if isx then lit "cx" else lit "cz")
                     (ws1 ++ operand r1 c ++ ","%char :: ws2 ++ operand r2 t) tail) =
  Ok (PGate (GControlled c (SBasic t (if isx then GX else GZ)) ct pl)).
Proof.
  intros. change (ws1 ++ operand r1 c ++ ","%char :: ws2 ++ operand r2 t) with (two_ops ws1 ws2 r1 r2 c t).
  rewrite (parse_controlled dflt ws ws1 ws2 isx r1 r2 c t tail words ct pl);
    try assumption; try (change (2 ^ 63)%N with (2 ^ 32 * 2 ^ 31)%N; nia).
  now rewrite !N.mod_small.
Qed.
Print Assumptions C07_controlled.

Theorem C07_controlled_rotation : forall dflt ws ws1 ws2 k r1 r2 c t tail words ct pl,
  spaces ws -> spaces ws1 -> spaces ws2 -> plain r1 -> plain r2 -> ~ In ";"%char tail ->
  (k < 2 ^ 63)%N -> (c < 2 ^ 32)%N -> (t < 2 ^ 32)%N ->
  annotated tail words -> first_named names_cnot_type ControlFirst words ct ->
  first_named names_placement dflt words pl ->
  parse_gate dflt (line ws (lit "crz(pi/" ++ print_N k ++ lit ")")
                     (ws1 ++ operand r1 c ++ ","%char :: ws2 ++ operand r2 t) tail) =
  Ok (PGate (GControlled c (SRZ t (mkFrac 1 (Z.of_N k) false)) ct pl)).
Proof.
  intros. change (ws1 ++ operand r1 c ++ ","%char :: ws2 ++ operand r2 t) with (two_ops ws1 ws2 r1 r2 c t).
  rewrite (parse_crz dflt ws ws1 ws2 k r1 r2 c t tail words ct pl);
    try assumption; try (change (2 ^ 63)%N with (2 ^ 32 * 2 ^ 31)%N; nia).
  now rewrite !N.mod_small.
Qed.
Print Assumptions C07_controlled_rotation.

Theorem C07_reset : forall dflt ws ws' reg i tail,
  spaces ws -> spaces ws' -> plain reg -> ~ In ";"%char tail -> (i < 2 ^ 32)%N ->
  parse_gate dflt (line ws (lit "reset") (ws' ++ operand reg i) tail) = Ok (PGate (GReset reg i)).
Proof.
  intros. rewrite parse_reset_line; try assumption; [now rewrite N.mod_small|].
  change (2 ^ 63)%N with (2 ^ 32 * 2 ^ 31)%N; nia.
Qed.
Print Assumptions C07_reset.

(** Rotations: the parsed gate applies the written phase, except for the whole
    even multiples of pi treated below. *)
Theorem C07_rotation_partial : forall dflt ws ws' a neg n d reg i tail,
  angle_written a neg n d -> spaces ws -> spaces ws' -> plain reg -> ~ In ";"%char tail -> (i < 2 ^ 32)%N ->
  (d <> 1 \/ N.odd n = true)%N ->
  exists g, parse_gate dflt (line ws (lit "rz(" ++ a ++ lit ")") (ws' ++ operand reg i) tail) = Ok (PGate g) /\
    forall s, same_result (act g s)
                (Some (if bits s i then add_phase (written_angle neg n d) s else s)).
Proof. exact rz_parsed_meaning. Qed.
Print Assumptions C07_rotation_partial.
(** rz(2k*pi), the identity, is turned into a Z gate. *)
Theorem C07_refuted_rotation : forall dflt ws ws' a neg n reg i tail,
  angle_written a neg n 1 -> N.even n = true ->
  spaces ws -> spaces ws' -> plain reg -> ~ In ";"%char tail -> (i < 2 ^ 32)%N ->
  exists g, parse_gate dflt (line ws (lit "rz(" ++ a ++ lit ")") (ws' ++ operand reg i) tail) = Ok (PGate g) /\
    forall s, bits s i = true ->
      ~ same_result (act g s) (Some (if bits s i then add_phase (written_angle neg n 1) s else s)).
Proof. exact rz_even_wrong. Qed.
Print Assumptions C07_refuted_rotation.
Example C07_ex_rotation : angle_written (lit "2*pi") false 2 1 /\
  parse_gate DedicatedCell (lit "rz(2*pi) q[5];") = Ok (PGate (GBasic 5 GZ)) /\
  parse_gate DedicatedCell (lit "  rz(-3*pi/8)  qs[12];") = Ok (PGate (GRZ 12 (mkFrac 3 8 true))).
Proof. split; [exact (aw_int 2 eq_refl)|split; vm_compute; reflexivity]. Qed.

(** Indices that do not fit: up to 2^63 they are silently reduced. *)
Theorem C07_refuted_large_index : forall dflt b reg i, plain reg -> (2 ^ 32 <= i < 2 ^ 63)%N ->
  exists k, parse_gate dflt (line [] (qasm_name b) (operand reg i) []) = Ok (PGate (GBasic k b)) /\ k <> i /\ (k < 2 ^ 32)%N.
Proof.
  intros dflt b reg i Hp Hi. exists (i mod 2 ^ 32)%N. split.
  - change (operand reg i) with ([] ++ operand reg i).
    rewrite parse_single; [|constructor|constructor|exact Hp|exact (fun x => x)].
    rewrite try_parse_qubit_print by (apply Hi). reflexivity.
  - assert (i mod 2 ^ 32 < 2 ^ 32)%N by (apply N.mod_lt; discriminate). lia.
Qed.
Print Assumptions C07_refuted_large_index.
Theorem C07_huge_index_rejected : forall dflt b reg i, plain reg -> (2 ^ 63 <= i)%N ->
  parse_gate dflt (line [] (qasm_name b) (operand reg i) []) = Throw ParseException.
Proof.
  intros dflt b reg i Hp Hi. change (operand reg i) with ([] ++ operand reg i).
  rewrite parse_single; [|constructor|constructor|exact Hp|exact (fun x => x)].
  unfold try_parse_qubit. rewrite try_parse_long_big by exact Hi. reflexivity.
Qed.
Print Assumptions C07_huge_index_rejected.

(** Printing and parsing back. *)
Theorem C07_print_parse_basic : forall dflt t b, (t < 2 ^ 32)%N ->
  parse_gate dflt (print_gate (GBasic t b)) = Ok (PGate (GBasic t b)).
Proof. exact print_parse_basic. Qed.
Print Assumptions C07_print_parse_basic.
Theorem C07_print_parse_controlled_partial : forall dflt c t (isx : bool), (c < 2 ^ 32)%N -> (t < 2 ^ 32)%N ->
  let g := GControlled c (SBasic t (if isx then GX else GZ)) ControlFirst dflt in
  parse_gate dflt (print_gate g) = Ok (PGate g).
Proof. exact print_parse_controlled. Qed.
Print Assumptions C07_print_parse_controlled_partial.
(** What does not come back: the CNOT type and placement of a controlled gate,
    and every rotation. *)
Theorem C07_refuted_print_rotation : forall dflt q f, parse_gate dflt (print_gate (GRZ q f)) = Throw ParseException.
Proof. exact printed_rz_rejected. Qed.
Print Assumptions C07_refuted_print_rotation.
Theorem C07_refuted_print_cnot_type : forall dflt c t ct pl, (c < 2 ^ 32)%N -> (t < 2 ^ 32)%N ->
  ct <> ControlFirst -> 
  exists g, parse_gate dflt (print_gate (GControlled c (SBasic t GX) ct pl)) = Ok (PGate g) /\
            g <> GControlled c (SBasic t GX) ct pl.
Proof.
  intros dflt c t ct pl Hc Ht Hct. exists (GControlled c (SBasic t GX) ControlFirst dflt). split.
  - exact (print_parse_controlled dflt c t true Hc Ht).
  - congruence.
Qed.
Print Assumptions C07_refuted_print_cnot_type.
Example C07_ex_controlled :
  parse_gate DedicatedCell (lit "cx q[4], r[4294967295]; // %AncillaNextToTarget,BellBased") =
  Ok (PGate (GControlled 4 (SBasic 4294967295 GX) BellBased NextToTarget)) /\
  annotated (lit " // %AncillaNextToTarget,BellBased") [lit "AncillaNextToTarget"; lit "BellBased"] /\
  first_named names_cnot_type ControlFirst [lit "AncillaNextToTarget"; lit "BellBased"] BellBased.
Proof.
  split; [vm_compute; reflexivity|]. split.
  - left. exists (lit "AncillaNextToTarget,BellBased"). repeat split; try discriminate.
    repeat apply Forall_cons; try notin_lit. constructor.
  - apply fn_later; [intros []; discriminate|]. now apply fn_here.
Qed.

(** ** C08 *)
(** A file is read exactly when every non-empty line reads, there is one
    register declaration and it precedes the gates; the result is then the
    gates of the file in order. *)
Theorem C08_complete_in_order : forall dflt content gs q,
  read_gate_file dflt content = Ok (gs, q) <->
  exists rs reg pre post,
    Forall2 (fun l r => parse_gate dflt l = Ok r)
            (filter (fun l => match l with [] => false | _ => true end) (split_on content newline)) rs /\
    rs = pre ++ PQreg (fst reg) (snd reg) :: post /\
    gates_among pre = [] /\ registers_among pre = [] /\ registers_among post = [] /\
    gs = gates_among post /\ q = Some reg.
Proof. exact read_gate_file_iff. Qed.
Print Assumptions C08_complete_in_order.
(** What counts as a line of the file: the file is its lines joined. *)
Theorem C08_lines : forall content,
  intercalate newline (split_on content newline) = content /\
  Forall (fun l => ~ In newline l) (split_on content newline).
Proof. intros. split; [apply split_on_join|apply split_on_fields]. Qed.
Print Assumptions C08_lines.
Theorem C08_unsupported_line_rejected : forall dflt content l,
  In l (split_on content newline) -> l <> [] -> (forall r, parse_gate dflt l <> Ok r) ->
  forall gs q, read_gate_file dflt content <> Ok (gs, q).
Proof.
  intros dflt content l Hin Hne Hp gs q H. apply C08_complete_in_order in H.
  destruct H as (rs & reg & pre & post & HF & _).
  assert (In l (filter nonblank (split_on content newline))) as Hl.
  { apply filter_In. split; [exact Hin|]. destruct l; [congruence|reflexivity]. }
  change (fun l : text => match l with [] => false | _ :: _ => true end) with nonblank in HF.
  destruct (Forall2_In_l _ _ _ _ HF Hl) as [r Hr]. exact (Hp r Hr).
Qed.
Print Assumptions C08_unsupported_line_rejected.
Theorem C08_second_register_rejected : forall dflt content l1 l2 a b c n1 k1 n2 k2,
  split_on content newline = a ++ l1 :: b ++ l2 :: c -> l1 <> [] -> l2 <> [] ->
  parse_gate dflt l1 = Ok (PQreg n1 k1) -> parse_gate dflt l2 = Ok (PQreg n2 k2) ->
  forall gs q, read_gate_file dflt content <> Ok (gs, q).
Proof.
  intros dflt content l1 l2 a b c n1 k1 n2 k2 Hs Hn1 Hn2 Hp1 Hp2 gs q H. apply C08_complete_in_order in H.
  destruct H as (rs & reg & pre & post & HF & Hrs & _ & Hr1 & Hr2 & _).
  assert (nonblank l1 = true) as E1 by (destruct l1; [congruence|reflexivity]).
  assert (nonblank l2 = true) as E2 by (destruct l2; [congruence|reflexivity]).
  assert (filter nonblank (a ++ l1 :: b ++ l2 :: c) =
          filter nonblank a ++ l1 :: filter nonblank b ++ l2 :: filter nonblank c) as Ef.
  { rewrite filter_app. cbn [filter]. rewrite E1, filter_app. cbn [filter]. now rewrite E2. }
  rewrite Hs in HF. change (Forall2 (fun l r => parse_gate dflt l = Ok r) (filter nonblank (a ++ l1 :: b ++ l2 :: c)) rs) in HF.
  rewrite Ef in HF.
  apply Forall2_app_inv in HF. destruct HF as (ra & rb & Hra & _ & HFb).
  inversion HFb as [|? r1 ? rb' Hr1' HFb']; subst rb. assert (r1 = PQreg n1 k1) as -> by congruence.
  apply Forall2_app_inv in HFb'. destruct HFb' as (rc & rd & -> & _ & HFd).
  inversion HFd as [|? r2 ? rd' Hr2' HFd']; subst rd. assert (r2 = PQreg n2 k2) as -> by congruence.
  assert (registers_among rs = [reg]) as R1.
  { rewrite Hrs, registers_among_app, Hr1. cbn. rewrite Hr2. now destruct reg. }
  rewrite Hra, registers_among_app in R1. cbn in R1. rewrite registers_among_app in R1. cbn in R1.
  apply (f_equal (@length _)) in R1. rewrite app_length in R1. cbn in R1. rewrite app_length in R1. cbn in R1. lia.
Qed.
Print Assumptions C08_second_register_rejected.
(** Blank lines: an empty line is skipped, but a line holding only white space
    is not; its first character is read from an empty view. *)
Theorem C08_refuted_blank_line : forall dflt ws r, ws <> [] -> Forall (fun c => isspace c = true) ws ->
  advance_gate dflt (ws :: r) None = UB UBIndex.
Proof.
  intros dflt ws r Hne H. assert (parse_gate dflt ws = UB UBIndex) as Hp.
  { unfold parse_gate. replace (ltrim ws) with (@nil ascii); [reflexivity|].
    clear Hne. induction H as [|c ws Hc _ IH]; [reflexivity|]. cbn. now rewrite Hc. }
  destruct ws as [|c ws]; [congruence|]. cbn [advance_gate]. rewrite Hp. reflexivity.
Qed.
Print Assumptions C08_refuted_blank_line.
(** Malformed rotation lines index past the operand list instead of being rejected. *)
Theorem C08_refuted_rotation_operands :
  parse_gate DedicatedCell (lit "rz(pi/4)") = UB UBIndex /\
  parse_gate DedicatedCell (lit "crz(pi/4) q[0];") = UB UBIndex.
Proof. split; vm_compute; reflexivity. Qed.
(** These, and a line consisting of one slash, are the only lines whose reading
    is undefined. *)
Theorem C08_undefined_only_partial : forall dflt l u, parse_gate dflt l = UB u ->
  ltrim l = [] \/ ltrim l = lit "/" \/
  exists q, split_instruction_and_args (ltrim l) = Ok q /\
    ((exists r, ln_instr q = lit "rz" ++ r) /\ ln_args q = [] \/
     (exists r, ln_instr q = lit "crz(pi/" ++ r) /\ length (ln_args q) < 2).
Proof. exact parse_gate_ub. Qed.
Print Assumptions C08_undefined_only_partial.
Definition C08_file : text :=
  lit "OPENQASM 2.0;" ++ [newline] ++ lit "include ""qelib1.inc"";" ++ [newline; newline] ++
  lit "qreg q[3];" ++ [newline] ++ lit "// prepare" ++ [newline] ++ lit "h q[0];" ++ [newline] ++
  lit "cx q[0],q[1];" ++ [newline] ++ lit "t q[2];" ++ [newline].
Example C08_ex : read_gate_file DedicatedCell C08_file =
  Ok ([GBasic 0 GH; GControlled 0 (SBasic 1 GX) ControlFirst DedicatedCell; GBasic 2 GT], Some (lit "q", 3%N)).
Proof. vm_compute. reflexivity. Qed.

(** ** C09 *)
Theorem C09_decomposition_partial : forall gridsynth use input out,
  (exists fuel, rot_drain gridsynth use fuel [] input = Ok out) <->
  exists parts, out = concat parts /\
    Forall2 (fun g p => (~ is_rotation g -> p = [g]) /\
                        (is_rotation g -> decompose gridsynth use g = Ok p /\ p <> [])) input parts.
Proof.
  intros gridsynth use input out. split.
  - intros [fuel H]. apply rot_drain_sound in H. destruct H as (parts & HF & ->). exists parts. split; [reflexivity|].
    eapply Forall2_impl; [|exact HF]. cbn. intros g p [Hd Hp]. split; [|auto].
    intros Hn. apply not_rotation in Hn. rewrite (decompose_fixed gridsynth use g Hn) in Hd. congruence.
  - intros (parts & -> & HF). apply rot_drain_complete. exists parts. split; [|reflexivity].
    eapply Forall2_impl; [|exact HF]. cbn. intros g p [Hn Hr]. destruct (is_decomposed g) eqn:E.
    + rewrite (Hn (proj1 (not_rotation g) E)). split; [now apply decompose_fixed|discriminate].
    + apply Hr. destruct g as [q b|q f|c [q b|q f] ct pl|r q]; try discriminate.
      * left. eauto.
      * right. exists c, q, f, ct, pl. reflexivity.
Qed.
Print Assumptions C09_decomposition_partial.
Theorem C09_no_rotation_left : forall gridsynth use input out fuel,
  rot_drain gridsynth use fuel [] input = Ok out -> Forall (fun g => ~ is_rotation g) out.
Proof.
  intros gridsynth use input out fuel H. apply rot_drain_sound, rot_spec_basic in H.
  eapply Forall_impl; [|exact H]. intros g. apply not_rotation.
Qed.
Print Assumptions C09_no_rotation_left.
Theorem C09_others_unchanged : forall gridsynth use input out fuel,
  Forall (fun g => ~ is_rotation g) input ->
  rot_drain gridsynth use fuel [] input = Ok out -> out = input.
Proof.
  intros gridsynth use input out fuel Hn H.
  destruct (proj1 (C09_decomposition_partial gridsynth use input out) (ex_intro _ fuel H)) as (parts & -> & HF).
  clear H. induction HF as [|g p input parts [Hp _] _ IH]; [reflexivity|]. inversion Hn; subst.
  cbn. rewrite Hp by assumption. cbn. f_equal. auto.
Qed.
Print Assumptions C09_others_unchanged.
(** A rotation whose expansion is empty (the synthesiser returns nothing but
    phases, as for angle 0) makes the stream pop an empty queue. *)
Theorem C09_refuted_empty_expansion : forall q f fuel r (gridsynth : text -> outcome text) names,
  gridsynth (angle_text f) = Ok names -> Forall (fun c => c = "W"%char) names ->
  rot_drain gridsynth true (S fuel) [] (GRZ q f :: r) = UB UBPop.
Proof.
  intros q f fuel r gridsynth names Hg Hw. cbn [rot_drain rot_has_next rot_next is_decomposed decompose].
  unfold approximate_RZ, approximate_gridsynth. rewrite Hg. cbn [bind].
  assert (filter (fun c => negb (Ascii.eqb c "W")) (c_str names) = []) as ->.
  { clear Hg. induction Hw as [|c names -> _ IH]; [reflexivity|]. cbn. exact IH. }
  reflexivity.
Qed.
Print Assumptions C09_refuted_empty_expansion.
(** Without gridsynth every rotation stops the stream with an error. *)
Theorem C09_without_gridsynth : forall gridsynth fuel q f r,
  rot_drain gridsynth false (S fuel) [] (GRZ q f :: r) = Throw RuntimeError.
Proof. reflexivity. Qed.
Print Assumptions C09_without_gridsynth.
(** A toy synthesiser, exact on the angles it knows. *)
Definition toy (a : text) : outcome text :=
  if text_eqb a (lit "+1*pi/4") then Ok (lit "WT") else
  if text_eqb a (lit "+-1*pi/4") then Ok (lit "ZST") else
  if text_eqb a (lit "+1*pi/2") then Ok (lit "S") else Throw LogicError.
Example C09_ex : rot_drain toy true 20 [] [GBasic 0 GH; GRZ 1 (mkFrac 1 2 false); GBasic 1 GX] =
  Ok [GBasic 0 GH; GBasic 1 GS; GBasic 1 GX].
Proof. reflexivity. Qed.

(** ** C10 *)
(** With a synthesiser that is exact on single rotations, the expansion of a
    controlled rotation has the phase of the rotation by num/den whatever the
    sign flag says; so it is right for every angle without the flag. *)
Theorem C10_phase_partial : forall gridsynth use c t f ct pl gs,
  c <> t ->
  (forall q m p, m = fr_num f \/ m = (- fr_num f)%Z ->
     approximate_RZ gridsynth use q (mkFrac m (fr_den f * 2) false) = Ok p ->
     implements p (GRZ q (mkFrac m (fr_den f * 2) false))) ->
  decompose gridsynth use (GControlled c (SRZ t f) ct pl) = Ok gs ->
  fr_neg f = false ->
  implements gs (GControlled c (SRZ t f) ct pl).
Proof.
  intros gridsynth use c t f ct pl gs Hne Hex Hd Hf. destruct f as [n d neg]. cbn in Hf. subst neg.
  exact (crz_phase gridsynth use c t (mkFrac n d false) ct pl gs Hne Hex Hd).
Qed.
Print Assumptions C10_phase_partial.
(** With the flag, the expansion rotates the other way: wrong unless the angle
    is a whole multiple of pi. *)
Theorem C10_refuted_sign : forall gridsynth use c t n d ct pl gs,
  c <> t -> (d <> 0)%Z -> ~ (d | n)%Z ->
  (forall q m p, m = n \/ m = (- n)%Z ->
     approximate_RZ gridsynth use q (mkFrac m (d * 2) false) = Ok p ->
     implements p (GRZ q (mkFrac m (d * 2) false))) ->
  decompose gridsynth use (GControlled c (SRZ t (mkFrac n d true)) ct pl) = Ok gs ->
  ~ implements gs (GControlled c (SRZ t (mkFrac n d true)) ct pl).
Proof.
  intros gridsynth use c t n d ct pl gs Hne Hd Hdiv Hex Hdec H.
  assert (H' := crz_phase gridsynth use c t (mkFrac n d true) ct pl gs Hne Hex Hdec).
  set (s := mkBS (fun _ => true) 0). specialize (H s). specialize (H' s).
  destruct (act_all gs s) as [x|]; [|destruct H]. cbn [act act_sq bits s same_result] in H, H'.
  destruct H as [_ [k Hk]]. destruct H' as [_ [k' Hk']].
  cbn [add_phase phase s frac_value fr_num fr_den fr_neg] in Hk, Hk'.
  rewrite Hk in Hk'. apply Hdiv. exists (k - k')%Z.
  assert (~ inject_Z d == 0)%Q as Hd0 by (intros E; unfold Qeq in E; cbn in E; lia).
  assert (inject_Z n == (inject_Z k - inject_Z k') * inject_Z d)%Q as E.
  { rewrite !inject_Z_mult in Hk'. change (inject_Z 2) with 2%Q in Hk'.
    assert (inject_Z n / inject_Z d == inject_Z k - inject_Z k')%Q as Eq.
    { assert (2 * (inject_Z n / inject_Z d) == 2 * (inject_Z k - inject_Z k'))%Q as E2.
      { setoid_replace (2 * (inject_Z n / inject_Z d))%Q with
          ((0 + inject_Z n / inject_Z d + 2 * inject_Z k') - (0 + - (inject_Z n / inject_Z d) + 2 * inject_Z k) + 2 * (inject_Z k - inject_Z k'))%Q by ring.
        rewrite Hk'. ring. }
      apply Qmult_inj_l in E2; [exact E2|discriminate]. }
    rewrite <- Eq. field. exact Hd0. }
  unfold Qminus in E.
  rewrite <- inject_Z_opp, <- inject_Z_plus, <- inject_Z_mult in E. unfold Qeq in E. cbn [Qnum Qden inject_Z] in E. lia.
Qed.
Print Assumptions C10_refuted_sign.
(** The exactness hypothesis is met by the toy synthesiser. *)
Example C10_ex_exact : forall q m p, m = 1%Z \/ m = (- (1))%Z ->
  approximate_RZ toy true q (mkFrac m (2 * 2) false) = Ok p -> implements p (GRZ q (mkFrac m (2 * 2) false)).
Proof.
  intros q m p [-> | ->] H; vm_compute in H; injection H as <-; intros s;
  cbn [act_all act act_sq act_basic]; destruct (bits s q) eqn:E; cbn [bits add_phase act_all act act_sq act_basic]; rewrite ?E;
    cbn [bits add_phase act_all act act_sq act_basic]; rewrite ?E; cbn [same_result]; try apply same_state_refl.
  split; [reflexivity|]. exists 1%Z. cbn [phase add_phase].
    change (inject_Z (2 * 1)) with 2%Q. change (frac_value (mkFrac (- (1)) (2 * 2) false)) with (-1#4)%Q. ring.
Qed.
Example C10_ex : decompose toy true (GControlled 0 (SRZ 1 (mkFrac 1 2 true)) ControlFirst DedicatedCell) =
  Ok [GBasic 0 GT; GBasic 1 GT; GControlled 0 (SBasic 1 GX) ControlFirst DedicatedCell;
      GBasic 1 GT; GBasic 1 GS; GBasic 1 GZ; GControlled 0 (SBasic 1 GX) ControlFirst DedicatedCell].
Proof. reflexivity. Qed.

(** ** C18, for gates *)

(** The gate acts on the qubit. *)
Inductive gate_on : gate -> N -> Prop :=
| on_basic t b : gate_on (GBasic t b) t
| on_rz t f : gate_on (GRZ t f) t
| on_control c tg ct pl : gate_on (GControlled c tg ct pl) c
| on_target_basic c t b ct pl : gate_on (GControlled c (SBasic t b) ct pl) t
| on_target_rz c t f ct pl : gate_on (GControlled c (SRZ t f) ct pl) t
| on_reset reg t : gate_on (GReset reg t) t.

(** Both gates are controlled by [q], and it is not the target of both. *)
Definition common_control (a b : gate) (q : N) : Prop :=
  exists ta tb ca pa cb pb, a = GControlled q ta ca pa /\ b = GControlled q tb cb pb
    /\ ~ (In q (target_qubits ta) /\ In q (target_qubits tb)).

Lemma inter1 : forall x y, (match set_intersection [x] [y] with [] => true | _ => false end) = negb (N.eqb x y).
Proof. intros x y. cbn. destruct (N.eqb x y); reflexivity. Qed.

Lemma oset2_In : forall x t c, In x (oset_insert t [c]) <-> x = t \/ x = c.
Proof.
  intros x t c. unfold oset_insert. destruct (memN t [c]) eqn:E; cbn.
  - apply memN_In in E as [->|[]]. split; [intros [<-|[]]; auto|intros [->| ->]; auto].
  - split; [intros [<-|[<-|[]]]; auto|intros [->| ->]; auto].
Qed.

Lemma disjoint_iff : forall x y, (match set_intersection x y with [] => true | _ => false end) = true <-> forall q, In q x -> In q y -> False.
Proof.
  intros x y. unfold set_intersection. destruct (filter _ x) as [|z l] eqn:E; split; try discriminate; intros H.
  - intros q h1 h2. assert (h : In q (filter (fun v => memN v y) x)) by (apply filter_In; split; [auto|apply memN_In; auto]).
    rewrite E in h. destruct h.
  - reflexivity.
  - exfalso. assert (h : In z (filter (fun v => memN v y) x)) by (rewrite E; left; reflexivity).
    apply filter_In in h as [h1 h2]. apply memN_In in h2. eapply H; eauto.
Qed.

Lemma operating_on : forall g, (forall reg t, g <> GReset reg t) -> exists l, operating_qubits g = Ok l /\ forall q, In q l <-> gate_on g q.
Proof.
  intros [t b|t f|c [t b|t f] ct pl|reg t] H.
  - exists [t]. split; [reflexivity|]. intros q. split; [intros [<-|[]]; constructor|intros h; inversion h; left; reflexivity].
  - exists [t]. split; [reflexivity|]. intros q. split; [intros [<-|[]]; constructor|intros h; inversion h; left; reflexivity].
  - eexists. split; [reflexivity|]. intros q. rewrite oset2_In. split; [intros [->| ->]; constructor|intros h; inversion h; auto].
  - eexists. split; [reflexivity|]. intros q. rewrite oset2_In. split; [intros [->| ->]; constructor|intros h; inversion h; auto].
  - exfalso. eapply H; eauto.
Qed.

(** Gates are treated as reorderable exactly when the only qubit they share, if
    any, controls both. *)
Theorem C18_gates : forall a b, (forall reg t, a <> GReset reg t) -> (forall reg t, b <> GReset reg t) ->
  exists r, gates_can_commute a b = Ok r
    /\ (r = true <-> forall q, gate_on a q -> gate_on b q -> common_control a b q).
Proof.
  intros a b Ha Hb.
  destruct (operating_on a Ha) as (la & Ea & Pa). destruct (operating_on b Hb) as (lb & Eb & Pb).
  assert (G : (forall ca ta x y cb tb x' y', a = GControlled ca ta x y -> b = GControlled cb tb x' y' -> ca <> cb) ->
     (match set_intersection la lb with [] => true | _ => false end = true <->
       forall q, gate_on a q -> gate_on b q -> common_control a b q)).
  { intros Hne. rewrite disjoint_iff. split.
    - intros H q h1 h2. apply Pa in h1. apply Pb in h2. exfalso. eauto.
    - intros H q h1 h2. apply Pa in h1. apply Pb in h2. destruct (H q h1 h2) as (ta & tb & ca & pa & cb & pb & -> & -> & _).
      eapply Hne; reflexivity. }
  assert (Gen : (do qa <- operating_qubits a ;; do qb <- operating_qubits b ;;
     Ok (match set_intersection qa qb with [] => true | _ => false end)) = Ok (match set_intersection la lb with [] => true | _ => false end))
    by (rewrite Ea, Eb; reflexivity).
  destruct a as [t x|t f|ca ta cta pla|reg t]; try (eexists; split; [exact Gen|apply G; discriminate]).
  destruct b as [t x|t f|cb tb ctb plb|reg t]; try (eexists; split; [exact Gen|apply G; discriminate]).
  unfold gates_can_commute. cbv zeta. destruct (N.eqb_spec ca cb) as [->|Hne].
  2:{ eexists. split; [exact Gen|]. apply G. intros. congruence. }
  eexists. split; [reflexivity|].
  assert (Ht : exists x, target_qubits ta = [x] /\ forall q, gate_on (GControlled cb ta cta pla) q <-> q = cb \/ q = x).
  { destruct ta as [x b|x f]; exists x; (split; [reflexivity|]); intros q;
      (split; [intros h; inversion h; auto|intros [->| ->]; constructor]). }
  assert (Ht' : exists x, target_qubits tb = [x] /\ forall q, gate_on (GControlled cb tb ctb plb) q <-> q = cb \/ q = x).
  { destruct tb as [x b|x f]; exists x; (split; [reflexivity|]); intros q;
      (split; [intros h; inversion h; auto|intros [->| ->]; constructor]). }
  destruct Ht as (x & Ex & Px), Ht' as (y & Ey & Py). rewrite Ex, Ey, inter1.
  rewrite negb_true_iff, N.eqb_neq. split.
  - intros Hxy q h1 h2. apply Px in h1. apply Py in h2.
    assert (q = cb) by (destruct h1, h2; congruence). subst q.
    exists ta, tb, cta, pla, ctb, plb. split; [reflexivity|]. split; [reflexivity|].
    rewrite Ex, Ey. intros [[<-|[]] [<-|[]]]. congruence.
  - intros H e. subst y. destruct (H x) as (ta' & tb' & ? & ? & ? & ? & E1 & E2 & E3).
    + apply Px. auto.
    + apply Py. auto.
    + inversion E1; subst. inversion E2; subst. apply E3. rewrite Ex, Ey. split; left; reflexivity.
Qed.
Print Assumptions C18_gates.
Theorem C18_gates_symmetric : forall a b, (forall reg t, a <> GReset reg t) -> (forall reg t, b <> GReset reg t) ->
  gates_can_commute a b = gates_can_commute b a.
Proof.
  intros a b Ha Hb. destruct (C18_gates a b Ha Hb) as (r & E & P). destruct (C18_gates b a Hb Ha) as (r' & E' & P').
  rewrite E, E'. f_equal. apply eq_true_iff_eq. rewrite P, P'.
  assert (S : forall x y, (forall q, gate_on x q -> gate_on y q -> common_control x y q) ->
              forall q, gate_on y q -> gate_on x q -> common_control y x q).
  { intros x y H q h1 h2. destruct (H q h2 h1) as (ta & tb & ca & pa & cb & pb & h3 & h4 & h5).
    exists tb, ta, cb, pb, ca, pa. tauto. }
  split; apply S.
Qed.
Print Assumptions C18_gates_symmetric.
Example C18_ex_gates :
  gates_can_commute (GControlled 1 (SBasic 2 GX) ControlFirst DedicatedCell) (GControlled 1 (SBasic 3 GX) ControlFirst DedicatedCell) = Ok true
  /\ gates_can_commute (GControlled 1 (SBasic 2 GX) ControlFirst DedicatedCell) (GControlled 4 (SBasic 1 GX) ControlFirst DedicatedCell) = Ok false
  /\ gates_can_commute (GBasic 1 GH) (GControlled 1 (SBasic 3 GX) ControlFirst DedicatedCell) = Ok false.
Proof. repeat split. Qed.
