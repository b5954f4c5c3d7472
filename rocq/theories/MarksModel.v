(** Model of the part of wave_scheduler.cpp that gives marked boundaries their types back. *)
From Verif Require Import Base PatchesModel SliceModel.

(** wave_scheduler.cpp:79-91 *)
Definition give_back (sl : slice) : outcome slice :=
  do s1 <- foldM (fun s r => set_ref_type s r BRough) (s_rough sl) sl ;;
  do s2 <- foldM (fun s r => set_ref_type s r BSmooth) (s_smooth sl) s1 ;;
  Ok (with_marks s2 [] []).
