(** Model of include/lsqecc/ls_instructions/ls_instructions.hpp,
    local_instructions.hpp and their printing. *)
From Verif Require Import Base TextModel PatchesModel.

(** std::numeric_limits<size_t>::max() *)
Definition SIZE_MAX : N := (2 ^ 64 - 1)%N.

(** local_instructions.hpp:20-88 *)
Inductive local_instr :=
| LPrepareY (target_id : option N) (target_cell : cell)
| LBellPrepare (side1 side2 : option N) (cell1 cell2 : cell)
| LBellMeasure (cell1 cell2 : cell)
| LTwoPatchMeasure (cell1 cell2 : cell)
| LExtendSplit (ext_id : option N) (target_cell extension_cell : cell)
| LMergeContract (preserved measured : cell)
| LMove (source target : cell) (new_id : option N).

(** ls_instructions.hpp:43-48 *)
Record place_next_to := mkPNT { pnt_target : N; pnt_op : pauli }.

(** ls_instructions.hpp:53-56 *)
Inductive init_state := StZero | StPlus.

(** ls_instructions.hpp:105-111; the value 0 is outside the enumerators but is
    what [static_cast<Operator>(PauliOperator::I)] yields. *)
Inductive sq_op := SqX | SqY | SqZ | SqH | SqS | SqZeroValue.

(** The alternatives of the variant, ls_instructions.hpp:21-171, in order. *)
Inductive operation :=
| Declare (patch_ids : list N)
| Measure (target : N) (observable : pauli) (is_negative : bool)
| MultiMeasure (observable : list (N * pauli)) (is_negative : bool) (local : option local_instr)
| Init (target : N) (state : init_state) (place : option place_next_to)
| BellInit (side1 side2 : N) (loc1 loc2 : place_next_to)
           (locals : option (list local_instr)) (counter : option (nat * nat))
| MagicRequest (target near_patch : N)
| YRequest (target near_patch : N) (local : option local_instr)
| SingleOp (target : N) (op : sq_op) (is_dagger : bool)
| Rotate (target : N)
| Busy (reg : region) (steps_to_clear : N) (after : list spatch)
| BellCNOT (control target side1 side2 : N)
           (route : option region) (counters : option (list (nat * nat)))
           (local_sets : option (list (list local_instr))) (phase : option nat)
| Reset (target : N).

(** ls_instructions.hpp:147-177; [clients] is an insertion ordered set. *)
Record instr := mkI { op : operation; wait : N; clients : list N }.

(** [{operation}] with the default members *)
Definition instr_of (o : operation) : instr := mkI o SIZE_MAX [].

(** ls_instructions.cpp:10-64 *)
Definition operating_patches (i : instr) : list N :=
  let ins := fun l x => oset_insert x l in
  let ret := clients i in
  match op i with
  | Measure t _ _ => ins ret t
  | MultiMeasure obs _ _ => fold_left ins (map fst obs) ret
  | Init t _ _ => ins ret t
  | BellInit s1 s2 l1 l2 _ _ => ins (ins (ins (ins ret s1) s2) (pnt_target l1)) (pnt_target l2)
  | MagicRequest t _ => ins ret t
  | YRequest t _ _ => ins ret t
  | SingleOp t _ _ => ins ret t
  | Rotate t => ins ret t
  | Busy _ _ after =>
      fold_left (fun acc p => match p_id (sp_patch p) with Some x => ins acc x | None => acc end) after ret
  | BellCNOT c t s1 s2 _ _ _ _ => ins (ins (ins (ins ret c) t) s1) s2
  | Declare _ => ret
  | Reset t => ins ret t
  end.

(** lstk.hpp:270-288 *)
Definition set_intersection (a b : list N) : list N := filter (fun x => memN x b) a.
Definition set_union (a b : list N) : list N := fold_left (fun l x => oset_insert x l) b a.

(** ls_instructions.hpp:175 *)
Definition patch_dependencies (i : instr) : list N := set_union (operating_patches i) (clients i).

(** ls_instructions.hpp:294-301 *)
Definition can_commute (a b : instr) : bool :=
  match set_intersection (operating_patches a) (operating_patches b) with [] => true | _ => false end.

(** ** Printing *)

(** patches.cpp:111-114 *)
Definition print_cell (c : cell) : text :=
  lit "(" ++ print_Z (row c) ++ lit "," ++ print_Z (col c) ++ lit ")".

(** local_instructions.cpp:12-66 *)
Definition print_local (l : local_instr) : text :=
  match l with
  | LPrepareY _ c => lit "PrepareY " ++ print_cell c
  | LBellPrepare _ _ a b => lit "BellPrepare " ++ print_cell a ++ lit "," ++ print_cell b
  | LBellMeasure a b => lit "BellMeasure " ++ print_cell a ++ lit "," ++ print_cell b
  | LTwoPatchMeasure a b => lit "TwoPatchMeasure " ++ print_cell a ++ lit "," ++ print_cell b
  | LExtendSplit _ a b => lit "ExtendSplit " ++ print_cell a ++ lit "," ++ print_cell b
  | LMergeContract a b => lit "MergeContract " ++ print_cell a ++ lit "," ++ print_cell b
  | LMove a b _ => lit "Move " ++ print_cell a ++ lit "," ++ print_cell b
  end.

(** lstk.hpp:254-266 instantiated at a set of integers: the first element goes
    through [std::string::operator=(char)], so it is converted to one [char];
    the others are printed in decimal. *)
Definition join_ids (l : list N) (sep : text) : text :=
  match l with
  | [] => []
  | v :: r => join_go [ascii_of_N (v mod 256)] sep (map print_N r)
  end.

(** ls_instructions.hpp:263-274 *)
Definition print_state (s : init_state) : text :=
  match s with StZero => lit "|0>" | StPlus => lit "|+>" end.

(** ls_instructions.hpp:277-289; LSTK_UNREACHABLE for the value 0 *)
Definition print_sq_op (o : sq_op) : outcome text :=
  match o with
  | SqX => Ok (lit "X") | SqY => Ok (lit "Y") | SqZ => Ok (lit "Z")
  | SqH => Ok (lit "H") | SqS => Ok (lit "S")
  | SqZeroValue => Throw Unreachable
  end.

(** ls_instructions.cpp:107-112 *)
Definition print_pnt (p : place_next_to) : text :=
  print_N (pnt_target p) ++ lit ":" ++ pauli_to_string (pnt_op p).

(** One bracketed run of local instructions, [i] from [first] to [second-1],
    separated by ";" (ls_instructions.cpp:131-141 and 193-201); [k] is the
    number still to print.  Reading past the vector is undefined. *)
Fixpoint print_local_run (ls : list local_instr) (i k : nat) : outcome text :=
  match k with
  | O => Ok []
  | S k' => do l <- idx ls i ;;
            do r <- print_local_run ls (S i) k' ;;
            Ok (print_local l ++ (match k' with O => [] | _ => lit ";" end) ++ r)
  end.
Fixpoint print_local_sets (sets : list (list local_instr)) (counters : list (nat * nat)) : outcome text :=
  match sets with
  | [] => Ok []
  | s :: sets' =>
      match counters with
      | [] => UB UBIndex
      | (a, b) :: counters' =>
          do x <- print_local_run s a (b - a) ;;
          do y <- print_local_sets sets' counters' ;;
          Ok (x ++ y)
      end
  end.

(** ls_instructions.cpp:66-213 *)
Definition print_op (o : operation) : outcome text :=
  match o with
  | Declare ids => Ok (lit "DeclareLogicalQubitPatches" ++ lit " " ++ join_ids ids (lit ","))
  | Measure t p neg =>
      Ok (lit "MeasureSinglePatch" ++ lit " " ++ print_N t ++ lit " " ++
          (if neg then lit "-" else []) ++ pauli_to_string p)
  | MultiMeasure obs neg local =>
      Ok (lit "MultiBodyMeasure" ++ lit " " ++ (if neg then lit "-" else []) ++
          join (map (fun x => print_N (fst x) ++ lit ":" ++ pauli_to_string (snd x)) obs) (lit ",") ++
          match local with Some l => lit " [" ++ print_local l ++ lit "]" | None => [] end)
  | Init t s place =>
      Ok (lit "Init" ++ lit " " ++ print_N t ++ lit " " ++ print_state s ++
          match place with Some p => lit " " ++ print_pnt p | None => [] end)
  | BellInit s1 s2 l1 l2 locals counter =>
      do tail <- match counter, locals with
                 | Some (a, b), Some ls =>
                     do r <- print_local_run ls a (b - a) ;; Ok (lit " [" ++ r ++ lit "]")
                 | _, _ => Ok []
                 end ;;
      Ok (lit "BellPairInit" ++ lit " " ++ print_N s1 ++ lit " " ++ print_N s2 ++ lit " " ++
          print_pnt l1 ++ lit "," ++ print_pnt l2 ++ tail)
  | MagicRequest t near => Ok (lit "RequestMagicState" ++ lit " " ++ print_N t ++ lit " " ++ print_N near)
  | YRequest t near local =>
      Ok (lit "RequestYState" ++ lit " " ++ print_N t ++ lit " " ++ print_N near ++
          match local with Some l => lit " [" ++ print_local l ++ lit "]" | None => [] end)
  | SingleOp t o _ => do n <- print_sq_op o ;; Ok (n ++ lit "Gate" ++ lit " " ++ print_N t)
  | Rotate t => Ok (lit "RotateSingleCellPatch" ++ lit " " ++ print_N t)
  | Busy reg steps _ =>
      Ok (lit "BusyRegion" ++ lit " " ++
          flat_map (fun c => lit "(" ++ print_Z (row (sc_cell c)) ++ lit "," ++
                             print_Z (col (sc_cell c)) ++ lit "),") (rg_cells reg) ++
          lit "StepsToClear(" ++ print_N steps ++ lit ")")
  | BellCNOT c t s1 s2 _ counters sets _ =>
      do tail <- match counters, sets with
                 | Some cs, Some ss => do r <- print_local_sets ss cs ;; Ok (lit " [" ++ r ++ lit "]")
                 | _, _ => Ok []
                 end ;;
      Ok (lit "BellBasedCNOT" ++ lit " " ++ print_N c ++ lit " " ++ print_N t ++ lit " " ++
          print_N s1 ++ lit " " ++ print_N s2 ++ tail)
  | Reset t => Ok (lit "Reset" ++ lit " " ++ print_N t)
  end.
Definition print_instr (i : instr) : outcome text := print_op (op i).

(** ** Parsing: src/ls_instructions/ls_instructions_parse.cpp, parse_utils.cpp *)

(** parse_utils.cpp:11-20: [int] to [uint32_t] on return wraps modulo 2^32 *)
Definition parse_patch_id (s : text) : outcome N :=
  match from_chars_int s with
  | FCValue v => Ok (Z.to_N (v mod 2 ^ 32))
  | FCInvalid | FCRange => Throw RuntimeError
  end.

(** parse_utils.cpp:21-28 *)
Definition parse_init_state (s : text) : outcome init_state :=
  if text_eqb s (lit "|0>") then Ok StZero
  else if text_eqb s (lit "0") then Ok StZero
  else if text_eqb s (lit "|+>") then Ok StPlus
  else if text_eqb s (lit "+") then Ok StPlus
  else Throw RuntimeError.

(** tsl::ordered_map::insert_or_assign *)
Fixpoint omap_insert {A} (k : N) (v : A) (m : list (N * A)) : list (N * A) :=
  match m with
  | [] => [(k, v)]
  | (k', v') :: r => if N.eqb k k' then (k', v) :: r else (k', v') :: omap_insert k v r
  end.

(** ls_instructions_parse.cpp:14-28 and the identical test at 112-118 *)
Definition parse_pair (pr : text) : outcome (N * pauli) :=
  match split_on pr ":" with
  | [a; b] => do k <- parse_patch_id a ;; do p <- pauli_from_string b ;; Ok (k, p)
  | _ => Throw ParseException
  end.
Definition parse_multi_dict (arg : text) : outcome (list (N * pauli)) :=
  foldM (fun m pr => do kv <- parse_pair pr ;; Ok (omap_insert (fst kv) (snd kv) m))
        (split_on arg ",") [].

(** ls_instructions_parse.cpp:30-39 *)
Definition parse_id_list (arg : text) : outcome (list N) :=
  foldM (fun l e => do x <- parse_patch_id e ;; Ok (oset_insert x l)) (split_on arg ",") [].

(** ls_instructions_parse.cpp:46-52: the remaining arguments *)
Definition next_arg (args : list text) : outcome (text * list text) :=
  match args with a :: r => Ok (a, r) | [] => Throw ParseException end.

(** ls_instructions_parse.cpp:105-121; [counter] is the number already read *)
Fixpoint parse_locs (counter : nat) (pairs : list text) : outcome (list place_next_to) :=
  match pairs with
  | [] => Ok []
  | pr :: r =>
      match split_on pr ":" with
      | [a; b] =>
          if (1 <? counter)%nat then Throw ParseException
          else do k <- parse_patch_id a ;; do p <- pauli_from_string b ;;
               do ls <- parse_locs (S counter) r ;; Ok (mkPNT k p :: ls)
      | _ => Throw ParseException
      end
  end.

(** [static_cast<SingleQubitOp::Operator>(PauliOperator)] *)
Definition sq_of_pauli (p : pauli) : sq_op :=
  match p with PI => SqZeroValue | PX => SqX | PY => SqY | PZ => SqZ end.

Definition is_kw (s : text) (name : string) (code : string) : bool :=
  text_eqb s (lit name) || text_eqb s (lit code).

(** ls_instructions_parse.cpp:54-149, from the split arguments on *)
Definition parse_args (all : list text) : outcome instr :=
  do (kw, args) <- next_arg all ;;
  if text_eqb kw (lit "DeclareLogicalQubitPatches") then
    do (a, _) <- next_arg args ;;
    do ids <- parse_id_list a ;; Ok (instr_of (Declare ids))
  else if is_kw kw "Init" "0" then
    do (a, args) <- next_arg args ;; do id <- parse_patch_id a ;;
    do (b, args) <- next_arg args ;; do st <- parse_init_state b ;;
    match args with
    | [] => Ok (mkI (Init id st None) SIZE_MAX [id])
    | c :: _ =>
        let info := split_on c ":" in
        do x <- at_ info 0 ;; do k <- parse_patch_id x ;;
        do y <- at_ info 1 ;; do p <- pauli_from_string y ;;
        Ok (mkI (Init id st (Some (mkPNT k p))) SIZE_MAX [id])
    end
  else if is_kw kw "MeasureSinglePatch" "1" then
    do (a, args) <- next_arg args ;; do id <- parse_patch_id a ;;
    do (b, _) <- next_arg args ;; do p <- pauli_from_string b ;;
    Ok (instr_of (Measure id p false))
  else if is_kw kw "MultiBodyMeasure" "2" then
    do (a, _) <- next_arg args ;; do m <- parse_multi_dict a ;;
    Ok (instr_of (MultiMeasure m false None))
  else if is_kw kw "RequestMagicState" "3" then
    do (a, args) <- next_arg args ;; do t <- parse_patch_id a ;;
    do (b, _) <- next_arg args ;; do n <- parse_patch_id b ;;
    Ok (mkI (MagicRequest t n) SIZE_MAX [])
  else if is_kw kw "LogicalPauli" "4" then
    do (a, args) <- next_arg args ;; do id <- parse_patch_id a ;;
    do (b, _) <- next_arg args ;; do p <- pauli_from_string b ;;
    Ok (instr_of (SingleOp id (sq_of_pauli p) false))
  else if is_kw kw "HGate" "5" then
    do (a, _) <- next_arg args ;; do id <- parse_patch_id a ;;
    Ok (instr_of (SingleOp id SqH false))
  else if is_kw kw "SGate" "6" then
    do (a, _) <- next_arg args ;; do id <- parse_patch_id a ;;
    Ok (instr_of (SingleOp id SqS false))
  else if is_kw kw "RotateSingleCellPatch" "7" then
    do (a, _) <- next_arg args ;; do id <- parse_patch_id a ;;
    Ok (instr_of (Rotate id))
  else if is_kw kw "BellPairInit" "8" then
    do (a, args) <- next_arg args ;; do s1 <- parse_patch_id a ;;
    do (b, args) <- next_arg args ;; do s2 <- parse_patch_id b ;;
    do (c, _) <- next_arg args ;;
    do locs <- parse_locs 0 (split_on c ",") ;;
    do l1 <- idx locs 0 ;; do l2 <- idx locs 1 ;;
    Ok (instr_of (BellInit s1 s2 l1 l2 None None))
  else if is_kw kw "RequestYState" "9" then
    do (a, args) <- next_arg args ;; do t <- parse_patch_id a ;;
    do (b, _) <- next_arg args ;; do n <- parse_patch_id b ;;
    Ok (mkI (YRequest t n None) SIZE_MAX [])
  else if is_kw kw "BellBasedCNOT" "10" then
    do (a, args) <- next_arg args ;; do c <- parse_patch_id a ;;
    do (b, args) <- next_arg args ;; do t <- parse_patch_id b ;;
    do (d, args) <- next_arg args ;; do s1 <- parse_patch_id d ;;
    do (e, _) <- next_arg args ;; do s2 <- parse_patch_id e ;;
    Ok (instr_of (BellCNOT c t s1 s2 None None None None))
  else Throw ParseException.

(** ls_instructions_parse.cpp:41-149 *)
Definition parse_instr (line : text) : outcome instr := parse_args (split_on line " ").

(** ls_instructions.hpp:179-183 *)
Record computation := mkComp { core_qubits : list N; instructions : list instr }.

(** ls_instructions_parse.cpp:152-180 *)
Fixpoint parse_lines (lines : list text) (got : bool) (c : computation) : outcome computation :=
  match lines with
  | [] => Ok c
  | [] :: r => parse_lines r got c
  | l :: r =>
      do i <- parse_instr l ;;
      match op i with
      | Declare ids => if got then Throw ParseException
                       else parse_lines r true (mkComp ids (instructions c))
      | _ => parse_lines r got (mkComp (core_qubits c) (instructions c ++ [i]))
      end
  end.
Definition parse_program (source : text) : outcome computation :=
  parse_lines (split_on source (ascii_of_nat 10)) false (mkComp [] []).
