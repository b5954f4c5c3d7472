(** Model of src/gates/postgres_gate_stream.cpp: a circuit read from a database.

    The table is the list of its rows with their layers, in the order in which the server
    returns them (there is no ORDER BY: the theorems hold for every order).  Not modelled:
    the connection, the texts of the columns (their numbers are given, [None] for a text
    std::stoi and its kin reject; numbers out of the range of the conversion are left out)
    and the width of the layer counter. *)
From Coq Require Import QArith.
From Verif Require Import Base TextModel GatesModel.
Open Scope Z_scope.

(** A value of type double. *)
Inductive double := Finite (q : Q) | NotFinite.

(** The columns that are read, postgres_gate_stream.cpp:69-107. *)
Record row := mkRow { r_type : option Z; r_control : option Z; r_target : option Z; r_param : option double }.
Definition table := list (nat * row).

(** pq.hpp:82-104 *)
Definition column {A} (x : option A) : outcome A := match x with Some a => Ok a | None => Throw InvalidArgument end.
(** Conversion of an int64_t to a QubitNum. *)
Definition qubit_num (z : Z) : N := Z.to_N (z mod 2 ^ 32).

(** postgres_gate_stream.cpp:76-91 *)
Definition is_angle (d : double) (q : Q) : bool := match d with Finite x => Qeq_bool x q | NotFinite => false end.
Definition power_gate (c : N) (d : double) : outcome gate :=
  if is_angle d 1 || is_angle d (-1 # 1) then Ok (GBasic c GZ)
  else if is_angle d (1 # 2) then Ok (GBasic c GS)
  else if is_angle d (-1 # 2) then Ok (GBasic c GSDg)
  else if is_angle d (1 # 4) then Ok (GBasic c GT)
  else if is_angle d (-1 # 4) then Ok (GBasic c GTDg)
  else Throw RuntimeError.

(** postgres_gate_stream.cpp:69-118; the numbers of the types are in 6-39. *)
Definition row_gate (r : row) : outcome (option gate) :=
  do c <- column (r_control r) ;;
  let c := qubit_num c in
  do t <- column (r_type r) ;;
  if (t =? 5) || (t =? 6) || (t =? 7) then do d <- column (r_param r) ;; do g <- power_gate c d ;; Ok (Some g)
  else if t =? 8 then Ok (Some (GBasic c GH))
  else if t =? 9 then Ok (Some (GBasic c GX))
  else if t =? 10 then Ok (Some (GBasic c GZ))
  else if (t =? 1) || (t =? 0) || (t =? 14) || (t =? 13) then Ok None
  else if (t =? 17) || (t =? 18) then
    do q <- column (r_target r) ;; Ok (Some (GControlled c (SBasic (qubit_num q) GX) ControlFirst NextToControl))
  else if t =? 27 then Ok (Some (GBasic c GS))
  else if t =? 28 then Ok (Some (GBasic c GSDg))
  else if t =? 29 then Ok (Some (GBasic c GT))
  else if t =? 30 then Ok (Some (GBasic c GTDg))
  else Throw RuntimeError.

(** postgres_gate_stream.hpp:32-34 *)
Record reader := mkReader { rd_queue : list gate; rd_layer : nat }.

(** postgres_gate_stream.cpp:47-57: the register, and the reader past the first layer *)
Definition is_input (r : row) : bool := match r_type r with Some t => t =? 0 | None => false end.
Definition open_table (db : table) : outcome ((text * N) * reader) :=
  let count := Z.of_nat (length (filter (fun x => is_input (snd x)) db)) in
  if count >? 2 ^ 32 - 1 then Throw RuntimeError else Ok ((lit "pandora_reg", Z.to_N count), mkReader [] 1).

(** postgres_gate_stream.cpp:61-121 *)
Definition layer_rows (db : table) (n : nat) : list row := map snd (filter (fun x => (fst x =? n)%nat) db).
Definition advance_layer (db : table) (s : reader) : outcome reader :=
  do q <- foldM (fun q r => do g <- row_gate r ;; Ok (match g with Some g => q ++ [g] | None => q end)) (layer_rows db (rd_layer s)) (rd_queue s) ;;
  Ok (mkReader q (S (rd_layer s))).
Definition refill (db : table) (s : reader) : outcome reader := match rd_queue s with [] => advance_layer db s | _ => Ok s end.

(** postgres_gate_stream.cpp:132-139 *)
Definition has_next_gate (db : table) (s : reader) : outcome (bool * reader) :=
  do s <- refill db s ;; Ok (match rd_queue s with [] => false | _ => true end, s).
(** postgres_gate_stream.cpp:123-130: [front] of an empty queue *)
Definition get_next_gate (db : table) (s : reader) : outcome (gate * reader) :=
  do s <- refill db s ;;
  match rd_queue s with [] => UB UBPop | g :: q => Ok (g, mkReader q (rd_layer s)) end.

(** domain_dags.cpp:24-25: reading a stream of gates to its end *)
Fixpoint read_table (fuel : nat) (db : table) (s : reader) : outcome (list gate) :=
  match fuel with
  | O => Fuel
  | S fuel => do (more, s) <- has_next_gate db s ;;
      if more : bool then do (g, s) <- get_next_gate db s ;; do gs <- read_table fuel db s ;; Ok (g :: gs) else Ok []
  end.

(** What SlicerModel takes for the circuit behind a port. *)
Definition pandora_input (fuel : nat) (db : table) : outcome (list gate * (text * N)) :=
  do (q, s) <- open_table db ;; do gs <- read_table fuel db s ;; Ok (gs, q).
