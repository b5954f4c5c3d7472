(** Model of include/lsqecc/gates/*.hpp and src/gates/{gates,parse_gates,
    gate_approximator,decompose_rotation_stream}.cpp. *)
From Verif Require Import Base TextModel PatchesModel InstrModel.

(** gates.hpp:16-22; int64_t members as integers, overflow tested where the
    code computes with them. *)
Record fraction := mkFrac { fr_num : Z; fr_den : Z; fr_neg : bool }.

(** gates.hpp:31-47 *)
Inductive basic := GX | GY | GZ | GS | GT | GH | GSDg | GTDg.

(** gates.hpp:59-78 *)
Inductive cnot_type := ControlFirst | TargetFirst | BellBased.
Inductive placement := DedicatedCell | NextToControl | NextToTarget.

(** gates.hpp:57, [SingleQubitGate] *)
Inductive sq_gate := SBasic (target : N) (b : basic) | SRZ (target : N) (f : fraction).

(** gates.hpp:81-100 and 144, [Gate] *)
Inductive gate :=
| GBasic (target : N) (b : basic)
| GRZ (target : N) (f : fraction)
| GControlled (control : N) (tg : sq_gate) (ct : cnot_type) (pl : placement)
| GReset (reg : text) (target : N).

(** gates.cpp:92-105 *)
Definition cnot_type_to_string (t : cnot_type) : text :=
  match t with
  | ControlFirst => lit "ZXWithMBMControlFirst"
  | TargetFirst => lit "ZXWithMBMTargetFirst"
  | BellBased => lit "BellBased"
  end.
(** gates.cpp:107-114 *)
Definition cnot_type_from_string (s : text) : option cnot_type :=
  if text_eqb s (cnot_type_to_string ControlFirst) then Some ControlFirst
  else if text_eqb s (cnot_type_to_string TargetFirst) then Some TargetFirst
  else if text_eqb s (cnot_type_to_string BellBased) then Some BellBased
  else None.
(** gates.cpp:117-130 *)
Definition placement_to_string (p : placement) : text :=
  match p with
  | DedicatedCell => lit "AncillaFreePlacement"
  | NextToControl => lit "AncillaNextToControl"
  | NextToTarget => lit "AncillaNextToTarget"
  end.
(** gates.cpp:132-141 *)
Definition placement_from_string (s : text) : option placement :=
  if text_eqb s (placement_to_string DedicatedCell) then Some DedicatedCell
  else if text_eqb s (placement_to_string NextToControl) then Some NextToControl
  else if text_eqb s (placement_to_string NextToTarget) then Some NextToTarget
  else None.

(** gates.cpp:143-177 *)
Definition operating_qubits (g : gate) : outcome (list N) :=
  match g with
  | GBasic t _ => Ok [t]
  | GRZ t _ => Ok [t]
  | GControlled c (SBasic t _) _ _ => Ok (oset_insert t [c])
  | GControlled c (SRZ t _) _ _ => Ok (oset_insert t [c])
  | GReset _ _ => Throw Unreachable
  end.

(** [std::visit(get_operating_qubits, target_gate)] *)
Definition target_qubits (g : sq_gate) : list N :=
  match g with SBasic t _ => [t] | SRZ t _ => [t] end.

(** gates.hpp:162-177 *)
Definition gates_can_commute (a b : gate) : outcome bool :=
  let general :=
    do qa <- operating_qubits a ;; do qb <- operating_qubits b ;;
    Ok (match set_intersection qa qb with [] => true | _ => false end) in
  match a, b with
  | GControlled ca ta _ _, GControlled cb tb _ _ =>
      if N.eqb ca cb
      then Ok (match set_intersection (target_qubits ta) (target_qubits tb) with [] => true | _ => false end)
      else general
  | _, _ => general
  end.

(** ** Printing, gates.cpp:203-257 *)
Definition basic_name (b : basic) : text :=
  match b with
  | GX => lit "x" | GY => lit "y" | GZ => lit "z" | GS => lit "s" | GT => lit "t"
  | GH => lit "h" | GSDg => lit "sdg" | GTDg => lit "tdg"
  end.
Definition print_gate (g : gate) : text :=
  match g with
  | GBasic t b => basic_name b ++ lit " q[" ++ print_N t ++ lit "];"
  | GRZ t f => lit "rz(" ++ print_Z (fr_num f) ++ lit "pi/" ++ print_Z (fr_den f) ++ lit ") q[" ++ print_N t ++ lit "];"
  | GControlled c (SBasic t b) _ _ =>
      lit "c" ++ basic_name b ++ lit " q[" ++ print_N c ++ lit "],q[" ++ print_N t ++ lit "];"
  | GControlled c (SRZ t f) _ _ =>
      lit "crz(" ++ (if (fr_num f =? 1)%Z then [] else print_Z (fr_num f) ++ lit "*pi") ++
      lit "pi/" ++ print_Z (fr_den f) ++ lit ") q[" ++ print_N c ++ lit "],q[" ++ print_N t ++ lit "];"
  | GReset _ t => lit "resetq[" ++ print_N t ++ lit "]"
  end.

(** ** Parsing, parse_gates.cpp *)

(** [std::string::c_str()] seen by a C function: up to the first NUL *)
Fixpoint c_str (s : text) : text :=
  match s with
  | [] => []
  | c :: r => if Ascii.eqb c zero then [] else c :: c_str r
  end.

(** [strtol(_, _, 10)] with 64 bit [long]: skips white space, optional sign,
    digits; [None] if no digits, otherwise the exact integer and the rest. *)
Definition strtol10 (s : text) : option (Z * text) :=
  let s := ltrim s in
  let '(neg, body) := match s with
                      | c :: r => if Ascii.eqb c "-" then (true, r)
                                  else if Ascii.eqb c "+" then (false, r) else (false, s)
                      | [] => (false, s)
                      end in
  let '(v, any, rest) := read_digits body 0 false in
  if any then Some ((if neg then - Z.of_N v else Z.of_N v)%Z, rest) else None.

(** parse_gates.cpp:25-45, before the conversion of [long] to [Integer] *)
Definition try_parse_long (s : text) : outcome Z :=
  match strtol10 (c_str s) with
  | None => Throw ParseException
  | Some (v, rest) =>
      if ((v <? - 2 ^ 63) || (2 ^ 63 <=? v))%Z then Throw ParseException
      else match rest with [] => Ok v | _ => Throw ParseException end
  end.
(** instance at QubitNum = uint32_t: wraps modulo 2^32 *)
Definition try_parse_qubit (s : text) : outcome N :=
  do v <- try_parse_long s ;; Ok (Z.to_N (v mod 2 ^ 32)).

(** [while (arg.starts_with(' ')) arg.remove_prefix(1)] *)
Fixpoint drop_spaces (s : text) : text :=
  match s with c :: r => if Ascii.eqb c " " then drop_spaces r else s | [] => [] end.

(** [starts_with(p)] then the rest *)
Fixpoint strip_prefix (p s : text) : option text :=
  match p, s with
  | [], _ => Some s
  | x :: p', y :: s' => if Ascii.eqb x y then strip_prefix p' s' else None
  | _ :: _, [] => None
  end.

(** parse_gates.cpp:11-21 *)
Record qline := mkLine { ln_instr : text; ln_args : list text; ln_annot : list text }.

(** parse_gates.cpp:47-73 *)
Definition split_instruction_and_args (s : text) : outcome qline :=
  if negb (contains s " ") then Ok (mkLine s [] [])
  else
    let semi := split_on s ";" in
    do g <- at_ semi 0 ;;
    let annotation_line := match nth_error semi 1 with Some a => a | None => [] end in
    do (i, details) <- split_on_first g " " ;;
    let args := map drop_spaces (split_on details ",") in
    let annots := match strip_prefix (lit " // %") annotation_line with
                  | Some r => split_on r ","
                  | None => []
                  end in
    Ok (mkLine i args annots).

(** parse_gates.cpp:75-82 *)
Definition get_index_arg (s : text) : outcome N :=
  do a <- at_ (split_on s "[") 1 ;; do b <- at_ (split_on a "]") 0 ;; try_parse_qubit b.

(** parse_gates.cpp:85-91 *)
Definition get_arg_in_brackets (s : text) : outcome text :=
  do a <- at_ (split_on s "(") 1 ;; at_ (split_on a ")") 0.

(** parse_gates.cpp:93-111; [dflt] is ControlledGate::default_ancilla_placement *)
Fixpoint first_some {A} (f : text -> option A) (l : list text) (d : A) : A :=
  match l with [] => d | x :: r => match f x with Some a => a | None => first_some f r d end end.
Definition determine_cnot_type (annots : list text) : cnot_type :=
  first_some cnot_type_from_string annots ControlFirst.
Definition determine_placement (dflt : placement) (annots : list text) : placement :=
  first_some placement_from_string annots dflt.

(** lstk.hpp:104-134, [split_on(string_view, string_view)].  [std::equal]
    compares up to the delimiter's length from the current position and stops at
    the first difference.  It may look at the one character after the view; in
    the only caller (parse_angle) that character is a bracket, a blank, a
    semicolon or the terminating NUL, none of which occurs in the delimiter, so
    looking past the end counts as a difference here.  For the same reason the
    final "finishing on a delimiter" test never succeeds. *)
Fixpoint split_str_go (fuel : nat) (d : text) (acc : text) (s : text) : list text :=
  match fuel with
  | O => []
  | S f =>
      match s with
      | [] => match acc with [] => [] | _ => [rev acc] end
      | c :: r => match strip_prefix d s with
                  | Some s' => rev acc :: split_str_go f d [] s'
                  | None => split_str_go f d (c :: acc) r
                  end
      end
  end.
Definition split_on_str (s d : text) : list text := split_str_go (S (length s)) d [] s.

(** parse_gates.cpp:114-141 *)
Definition parse_angle (s : text) : outcome fraction :=
  let '(neg, s) := match strip_prefix (lit "-") s with Some r => (true, r) | None => (false, s) end in
  match strip_prefix (lit "pi/") s with
  | Some r => do d <- try_parse_long r ;; Ok (mkFrac 1 d neg)
  | None =>
      let fin := fun split =>
        match split with
        | [a; b] => do n <- try_parse_long a ;; do d <- try_parse_long b ;; Ok (mkFrac n d neg)
        | _ => Throw ParseException
        end in
      let sp := split_on_str s (lit "*pi/") in
      match sp with
      | [_; _] => fin sp
      | _ => fin (split_on_str (s ++ lit "/1") (lit "*pi/"))
      end
  end.

(** parse_gates.cpp:143-154 *)
Definition parse_reset (args : list text) : outcome gate :=
  match args with
  | [a] => if contains a "[" then
             do p0 <- idx (split_on a "[") 0 ;; do i <- get_index_arg a ;; Ok (GReset p0 i)
           else Throw ParseException
  | _ => Throw ParseException
  end.

(** The chain of tests at parse_gates.cpp:158-165 *)
Definition basic_of_name (s : text) : option basic :=
  if text_eqb s (lit "x") then Some GX
  else if text_eqb s (lit "y") then Some GY
  else if text_eqb s (lit "z") then Some GZ
  else if text_eqb s (lit "s") then Some GS
  else if text_eqb s (lit "t") then Some GT
  else if text_eqb s (lit "h") then Some GH
  else if text_eqb s (lit "sdg") then Some GSDg
  else if text_eqb s (lit "tdg") then Some GTDg
  else None.

(** parse_gates.cpp:156-226.  The order in which the arguments of CNOT, CZ and
    CRZ are evaluated is unspecified in C++; it only decides which of two
    errors is reported. *)
Definition parse_qasm_gate (dflt : placement) (l : qline) : outcome gate :=
  match basic_of_name (ln_instr l) with
  | Some b => do a <- at_ (ln_args l) 0 ;; do i <- get_index_arg a ;; Ok (GBasic i b)
  | None =>
      if text_eqb (ln_instr l) (lit "cx") then
        match ln_args l with
        | [a; b] => do t <- get_index_arg b ;; do c <- get_index_arg a ;;
                    Ok (GControlled c (SBasic t GX) (determine_cnot_type (ln_annot l)) (determine_placement dflt (ln_annot l)))
        | _ => Throw ParseException
        end
      else if text_eqb (ln_instr l) (lit "cz") then
        match ln_args l with
        | [a; b] => do t <- get_index_arg b ;; do c <- get_index_arg a ;;
                    Ok (GControlled c (SBasic t GZ) (determine_cnot_type (ln_annot l)) (determine_placement dflt (ln_annot l)))
        | _ => Throw ParseException
        end
      else match strip_prefix (lit "rz") (ln_instr l) with
      | Some _ =>
          do br <- get_arg_in_brackets (ln_instr l) ;;
          if text_eqb br (lit "pi*-1") then
            do a <- at_ (ln_args l) 0 ;; do i <- get_index_arg a ;; Ok (GBasic i GZ)
          else
            do f <- parse_angle br ;;
            if (fr_den f =? 1)%Z then
              do a <- at_ (ln_args l) 0 ;; do i <- get_index_arg a ;; Ok (GBasic i GZ)
            else
              do a <- idx (ln_args l) 0 ;; do i <- get_index_arg a ;; Ok (GRZ i f)
      | None =>
          match strip_prefix (lit "crz") (ln_instr l) with
          | Some r =>
              match strip_prefix (lit "(pi/") r with
              | Some _ =>
                  do b <- idx (ln_args l) 1 ;; do t <- get_index_arg b ;;
                  do a <- idx (ln_args l) 0 ;; do c <- get_index_arg a ;;
                  do br <- get_arg_in_brackets (ln_instr l) ;; do f <- parse_angle br ;;
                  Ok (GControlled c (SRZ t f) (determine_cnot_type (ln_annot l)) (determine_placement dflt (ln_annot l)))
              | None => Throw ParseException
              end
          | None =>
              if text_eqb (ln_instr l) (lit "reset") then parse_reset (ln_args l)
              else Throw ParseException
          end
      end
  end.

(** parse_gates.cpp:228-237 *)
Definition is_ignored_instruction (s : text) : bool :=
  text_eqb s (lit "OPENQASM") || text_eqb s (lit "include") || text_eqb s (lit "creg") ||
  text_eqb s (lit "barrier") || text_eqb s (lit "//").

(** parse_gates.hpp:23-32 *)
Inductive parse_result := PGate (g : gate) | PIgnored | PQreg (name : text) (size : N).

(** parse_gates.cpp:241-252; [parts\[0\]] is only reached after get_index_arg
    has found a second part. *)
Definition parse_qreg (args : list text) : outcome parse_result :=
  match args with
  | [a] => do n <- get_index_arg a ;; do p0 <- idx (split_on a "[") 0 ;; Ok (PQreg p0 n)
  | _ => Throw ParseException
  end.

(** parse_gates.cpp:255-278.  [str_line\[0\]] and [str_line\[1\]] are unchecked. *)
Definition parse_gate (dflt : placement) (str_line : text) : outcome parse_result :=
  let s := ltrim str_line in
  do c0 <- idx s 0 ;;
  do comment <- (if Ascii.eqb c0 "/" then do c1 <- idx s 1 ;; Ok (Ascii.eqb c1 "/") else Ok false) ;;
  if comment then Ok PIgnored
  else
    do l <- split_instruction_and_args s ;;
    if is_ignored_instruction (ln_instr l) then Ok PIgnored
    else if text_eqb (ln_instr l) (lit "qreg") then parse_qreg (ln_args l)
    else do g <- parse_qasm_gate dflt l ;; Ok (PGate g).

(** ** The file reader, parse_gates.cpp:282-338 *)

(** State of GateStreamFromFile: the lines not yet read, the register, the
    gate read ahead.  [line_number_] only appears in messages. *)
Record gate_file := mkGF { gf_lines : list text; gf_qreg : option (text * N); gf_next : option gate }.

(** parse_gates.cpp:282-321.  Reading with [getline] until a non-empty line or
    the end of the file is taking the next non-empty element of the list of
    lines. *)
Fixpoint advance_gate (dflt : placement) (lines : list text) (qreg : option (text * N)) : outcome gate_file :=
  match lines with
  | [] => Ok (mkGF [] qreg None)
  | [] :: r => advance_gate dflt r qreg
  | l :: r =>
      match parse_gate dflt l with
      | Ok (PGate g) => Ok (mkGF r qreg (Some g))
      | Ok PIgnored => advance_gate dflt r qreg
      | Ok (PQreg n k) => match qreg with
                          | None => advance_gate dflt r (Some (n, k))
                          | Some _ => Throw RuntimeError
                          end
      | Throw ParseException => Throw RuntimeError
      | Throw e => Throw e
      | UB u => UB u
      | Fuel => Fuel
      end
  end.

(** parse_gates.cpp:324-331; the lines are the file's text split at newlines *)
Definition open_gate_file (dflt : placement) (content : text) : outcome gate_file :=
  do st <- advance_gate dflt (split_on content (ascii_of_nat 10)) None ;;
  match gf_qreg st with None => Throw RuntimeError | Some _ => Ok st end.

(** parse_gates.cpp:333-338 *)
Definition file_next_gate (dflt : placement) (st : gate_file) : outcome (gate * gate_file) :=
  do g <- value_ (gf_next st) ;;
  do st' <- advance_gate dflt (gf_lines st) (gf_qreg st) ;; Ok (g, st').

(** A client reading all gates: while has_next_gate, get_next_gate.  Each call
    uses up at least one line, so the number of lines plus one is enough fuel. *)
Fixpoint drain_file (fuel : nat) (dflt : placement) (st : gate_file) : outcome (list gate * option (text * N)) :=
  match fuel with
  | O => Fuel
  | S f =>
      match gf_next st with
      | None => Ok ([], gf_qreg st)
      | Some _ => do (g, st') <- file_next_gate dflt st ;;
                  do (gs, q) <- drain_file f dflt st' ;; Ok (g :: gs, q)
      end
  end.
Definition read_gate_file (dflt : placement) (content : text) : outcome (list gate * option (text * N)) :=
  do st <- open_gate_file dflt content ;;
  drain_file (S (S (length (gf_lines st)))) dflt st.

(** ** Rotation decomposition *)

(** gates.cpp:71-89 *)
Definition is_decomposed (g : gate) : bool :=
  match g with
  | GBasic _ _ => true
  | GReset _ _ => true
  | GRZ _ _ => false
  | GControlled _ (SRZ _ _) _ _ => false
  | GControlled _ (SBasic _ _) _ _ => true
  end.

(** Signed 64 bit arithmetic *)
Definition int64 (z : Z) : outcome Z :=
  if ((- 2 ^ 63 <=? z) && (z <? 2 ^ 63))%Z then Ok z else UB UBOverflow.

Section Decompose.
(** The external synthesiser: gate_approximator.cpp:56-67 called with an angle
    text returns the characters before the first NUL of its buffer, or throws. *)
Variable gridsynth : text -> outcome text.
(** Whether the program was built with USE_GRIDSYNTH. *)
Variable use_gridsynth : bool.

(** gate_approximator.cpp:70-81 *)
Definition gate_from_name (c : ascii) (q : N) : outcome gate :=
  if Ascii.eqb c "X" then Ok (GBasic q GX)
  else if Ascii.eqb c "Z" then Ok (GBasic q GZ)
  else if Ascii.eqb c "S" then Ok (GBasic q GS)
  else if Ascii.eqb c "T" then Ok (GBasic q GT)
  else if Ascii.eqb c "H" then Ok (GBasic q GH)
  else Throw RuntimeError.

(** gate_approximator.cpp:88-91 *)
Definition angle_text (f : fraction) : text :=
  (if fr_neg f then lit "-" else lit "+") ++ print_Z (fr_num f) ++ lit "*pi/" ++ print_Z (fr_den f).

(** gate_approximator.cpp:83-105 *)
Definition approximate_gridsynth (q : N) (f : fraction) : outcome (list gate) :=
  do names <- gridsynth (angle_text f) ;;
  do out <- mapM (fun c => gate_from_name c q) (filter (fun c => negb (Ascii.eqb c "W")) (c_str names)) ;;
  Ok (rev out).

(** gate_approximator.cpp:120-142: without gridsynth both branches throw *)
Definition approximate_RZ (q : N) (f : fraction) : outcome (list gate) :=
  if use_gridsynth then approximate_gridsynth q f else Throw RuntimeError.

(** gates.cpp:10-47.  [vector_extend] in program order. *)
Definition decompose_CRZ (c : N) (t : N) (f : fraction) (ct : cnot_type) (pl : placement) : outcome (list gate) :=
  do d2 <- int64 (fr_den f * 2) ;;
  do a <- approximate_RZ c (mkFrac (fr_num f) d2 false) ;;
  do b <- approximate_RZ t (mkFrac (fr_num f) d2 false) ;;
  do n' <- int64 (- fr_num f) ;;
  do e <- approximate_RZ t (mkFrac n' d2 false) ;;
  let cx := GControlled c (SBasic t GX) ct pl in
  Ok (a ++ b ++ [cx] ++ e ++ [cx]).

(** gates.cpp:50-68 *)
Definition decompose (g : gate) : outcome (list gate) :=
  match g with
  | GBasic _ _ => Ok [g]
  | GReset _ _ => Ok [g]
  | GRZ q f => approximate_RZ q f
  | GControlled c (SRZ t f) ct pl => decompose_CRZ c t f ct pl
  | GControlled _ (SBasic _ _) _ _ => Ok [g]
  end.

(** decompose_rotation_stream.cpp: the state is the queue and what is left of
    the input stream (here a list of gates). *)
Definition rot_has_next (queue input : list gate) : bool :=
  match queue, input with [], [] => false | _, _ => true end.
Definition rot_next (queue input : list gate) : outcome (gate * list gate * list gate) :=
  match queue with
  | g :: q => Ok (g, q, input)
  | [] => match input with
          | [] => Throw Unreachable
          | g :: r => if is_decomposed g then Ok (g, [], r)
                      else do gs <- decompose g ;;
                           match gs with
                           | [] => UB UBPop
                           | h :: t => Ok (h, t, r)
                           end
          end
  end.
(** A client draining the stream. *)
Fixpoint rot_drain (fuel : nat) (queue input : list gate) : outcome (list gate) :=
  match fuel with
  | O => Fuel
  | S f => if rot_has_next queue input then
             do (g, q, r) <- rot_next queue input ;;
             do gs <- rot_drain f q r ;; Ok (g :: gs)
           else Ok []
  end.
End Decompose.
