(** Reading LLI programs from a file, line by line. *)
From Verif Require Import Base InstrModel.

(** ls_instruction_stream.cpp:12-34, LSInstructionStreamFromFile::advance_instruction.
    The file is the list of its lines (std::getline); the result is the new
    [next_instruction_] and the lines that are left. *)
Fixpoint advance_instruction (lines : list text) : outcome (option instr * list text) :=
  match lines with
  | [] => Ok (None, [])
  | [] :: r => advance_instruction r
  | l :: r => match parse_instr l with
              | Ok i => Ok (Some i, r)
              | Throw ParseException => Throw RuntimeError
              | Throw e => Throw e
              | UB u => UB u
              | Fuel => Fuel
              end
  end.

Record file_stream := mkFS { fs_core : list N; fs_next : option instr; fs_lines : list text }.

(** ls_instruction_stream.cpp:37-51, the constructor *)
Definition open_stream (lines : list text) : outcome file_stream :=
  do (first, r) <- advance_instruction lines ;;
  match first with
  | None => Throw RuntimeError
  | Some i =>
      do (next, r) <- advance_instruction r ;;
      match op i with
      | Declare ids => Ok (mkFS ids next r)
      | _ => Throw RuntimeError
      end
  end.

(** ls_instruction_stream.cpp:53-58 *)
Definition get_next_instruction (s : file_stream) : outcome (instr * file_stream) :=
  match fs_next s with
  | None => Throw BadOptional
  | Some i => do (next, r) <- advance_instruction (fs_lines s) ;; Ok (i, mkFS (fs_core s) next r)
  end.

(** What every consumer of the stream does: ask until [has_next_instruction] is
    false (ls_instruction_stream.hpp:38).  [fuel] bounds the number of requests. *)
Fixpoint drain (fuel : nat) (s : file_stream) : outcome (list instr) :=
  match fuel, fs_next s with
  | _, None => Ok []
  | O, Some _ => Fuel
  | S f, Some _ => do (i, s') <- get_next_instruction s ;; do l <- drain f s' ;; Ok (i :: l)
  end.
Definition read_file (lines : list text) : outcome (list N * list instr) :=
  do s <- open_stream lines ;;
  do l <- drain (S (length lines)) s ;; Ok (fs_core s, l).
