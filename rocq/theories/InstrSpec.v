(** Independent vocabulary for the properties of the instruction set
    (C03-C06, C18) and of patch geometry (C46, C49). *)
From Verif Require Import Base PatchesModel InstrModel.

(** An id that fits in a 32 bit signed integer. *)
Definition small_id (n : N) : Prop := (n < 2 ^ 31)%N.

(** The instructions that have a faithful text form: plain measurements
    without sign, initialisations whose only client is their own patch,
    requests without attached local instructions, H and S without dagger,
    rotations, plain Bell operations, an empty declaration; default waiting
    limit; no artificial clients; ids that fit. *)
Inductive has_text_form : instr -> Prop :=
| tf_declare : has_text_form (mkI (Declare []) SIZE_MAX [])
| tf_measure t p : small_id t -> has_text_form (mkI (Measure t p false) SIZE_MAX [])
| tf_multi obs : Forall (fun x => small_id (fst x)) obs -> NoDup (map fst obs) ->
    has_text_form (mkI (MultiMeasure obs false None) SIZE_MAX [])
| tf_init t s : small_id t -> has_text_form (mkI (Init t s None) SIZE_MAX [t])
| tf_init_at t s n p : small_id t -> small_id n ->
    has_text_form (mkI (Init t s (Some (mkPNT n p))) SIZE_MAX [t])
| tf_bell s1 s2 l1 l2 : small_id s1 -> small_id s2 ->
    small_id (pnt_target l1) -> small_id (pnt_target l2) ->
    has_text_form (mkI (BellInit s1 s2 l1 l2 None None) SIZE_MAX [])
| tf_magic t n : small_id t -> small_id n -> has_text_form (mkI (MagicRequest t n) SIZE_MAX [])
| tf_y t n : small_id t -> small_id n -> has_text_form (mkI (YRequest t n None) SIZE_MAX [])
| tf_h t : small_id t -> has_text_form (mkI (SingleOp t SqH false) SIZE_MAX [])
| tf_s t : small_id t -> has_text_form (mkI (SingleOp t SqS false) SIZE_MAX [])
| tf_rotate t : small_id t -> has_text_form (mkI (Rotate t) SIZE_MAX [])
| tf_cnot c t s1 s2 : small_id c -> small_id t -> small_id s1 -> small_id s2 ->
    has_text_form (mkI (BellCNOT c t s1 s2 None None None None) SIZE_MAX []).

(** Printing succeeds and parsing the printed line gives the same instruction. *)
Definition round_trips (i : instr) : Prop :=
  exists line, print_instr i = Ok line /\ parse_instr line = Ok i.

(** The documented table of opcodes. *)
Definition opcode_table : list (string * string) :=
  [("Init", "0"); ("MeasureSinglePatch", "1"); ("MultiBodyMeasure", "2");
   ("RequestMagicState", "3"); ("LogicalPauli", "4"); ("HGate", "5"); ("SGate", "6");
   ("RotateSingleCellPatch", "7"); ("BellPairInit", "8"); ("RequestYState", "9");
   ("BellBasedCNOT", "10")]%string.

(** The patches an instruction names in any role. *)
Definition names (o : operation) (p : N) : Prop :=
  match o with
  | Declare _ => False
  | Measure t _ _ => p = t
  | MultiMeasure obs _ _ => In p (map fst obs)
  | Init t _ place => p = t \/ match place with Some x => p = pnt_target x | None => False end
  | BellInit s1 s2 l1 l2 _ _ => p = s1 \/ p = s2 \/ p = pnt_target l1 \/ p = pnt_target l2
  | MagicRequest t n => p = t \/ p = n
  | YRequest t n _ => p = t \/ p = n
  | SingleOp t _ _ => p = t
  | Rotate t => p = t
  | Busy _ _ after => exists s, In s after /\ p_id (sp_patch s) = Some p
  | BellCNOT c t s1 s2 _ _ _ _ => p = c \/ p = t \/ p = s1 \/ p = s2
  | Reset t => p = t
  end.
Definition uses (i : instr) (p : N) : Prop := names (op i) p \/ In p (clients i).

(** The patches named only as a place to be near to. *)
Definition proximity_only (o : operation) (p : N) : Prop :=
  match o with
  | Init _ _ (Some x) => p = pnt_target x
  | MagicRequest _ n => p = n
  | YRequest _ n _ => p = n
  | _ => False
  end.

(** ** Geometry *)
Open Scope Z_scope.

Definition step (c : cell) (d : dir) : cell :=
  match d with
  | DTop => mkCell (row c - 1) (col c)
  | DBottom => mkCell (row c + 1) (col c)
  | DLeft => mkCell (row c) (col c - 1)
  | DRight => mkCell (row c) (col c + 1)
  end.

(** Edge adjacency: Manhattan distance one. *)
Definition adjacent (a b : cell) : Prop := Z.abs (row a - row b) + Z.abs (col a - col b) = 1.

Definition in_box (origin furthest c : cell) : Prop :=
  row origin <= row c <= row furthest /\ col origin <= col c <= col furthest.

(** The tiles a standalone patch stands on. *)
Definition tiles_of (p : spatch) : list cell :=
  match sp_cells p with Single c => [sc_cell c] | Multi l => map sc_cell l end.
