(** Model of the passes that turn gates into LLI instructions:
    include/lsqecc/ls_instructions/id_generator.hpp,
    src/ls_instructions/{ls_instructions_from_gates,ls_instruction_stream,
    teleported_s_gate_injection_stream,catalytic_s_gate_injection_stream,
    boundary_rotation_injection_stream}.cpp and
    determine_exposed_operators.cpp:7-18. *)
From Verif Require Import Base TextModel PatchesModel InstrModel GatesModel.

(** id_generator.hpp.  The generator's state is kept as an unbounded counter
    [c]; the id handed out is its value as a 32 bit number. *)
Definition new_id (c : N) : N * N := ((c mod 2 ^ 32)%N, (c + 1)%N).

(** An initialised ordered_map / ordered_set with two entries: the first wins
    on equal keys. *)
Definition obs2 (a : N) (p : pauli) (b : N) (q : pauli) : list (N * pauli) :=
  if N.eqb a b then [(a, p)] else [(a, p); (b, q)].
Definition ids2 (a b : N) : list N := oset_insert b [a].

(** ls_instructions_from_gates.hpp:11-15 *)
Inductive correction_mode := CorrNever | CorrAlways.

Definition mpm (o : list (N * pauli)) : instr := instr_of (MultiMeasure o false None).
Definition sq (t : N) (o : sq_op) : instr := instr_of (SingleOp t o false).

(** ls_instructions_from_gates.cpp:47-129 *)
Definition make_cnot (local : bool) (c : N) (control target : N) (ct : cnot_type)
           (pl : placement) (corr : correction_mode) : outcome (list instr * N) :=
  let bell := match ct with BellBased => true | _ => local end in
  let fix_ := match corr with CorrAlways => fun i => [i] | CorrNever => fun _ => [] end in
  if bell then
    let '(id1, c1) := new_id c in
    let '(id2, c2) := new_id c1 in
    match corr with
    | CorrAlways => Throw LogicError
    | CorrNever => Ok ([mkI (BellCNOT control target id1 id2 None None None None) SIZE_MAX (ids2 control target)], c2)
    end
  else
    let place := match pl with
                 | NextToControl => Some (mkPNT control PZ)
                 | NextToTarget => Some (mkPNT target PX)
                 | DedicatedCell => None
                 end in
    let '(a, c1) := new_id c in
    let init := mkI (Init a StPlus place) SIZE_MAX (ids2 control target) in
    let body :=
      match ct with
      | ControlFirst =>
          mpm (obs2 control PZ a PZ) :: fix_ (sq a SqX) ++
          mpm (obs2 a PX target PX) :: fix_ (sq control SqZ)
      | _ =>
          mpm (obs2 a PX target PX) :: fix_ (sq a SqZ) ++
          mpm (obs2 control PZ a PZ) :: fix_ (sq target SqX)
      end in
    Ok (init :: body ++ [instr_of (Measure a PX false)], c1).

(** ls_instructions_from_gates.cpp:10-45; the dagger flag is ignored *)
Definition make_t (local : bool) (c : N) (target : N) (is_dagger : bool) : outcome (list instr * N) :=
  let '(m, c1) := new_id c in
  let req := mkI (MagicRequest m target) SIZE_MAX [target] in
  if local then
    do (cnot, c2) <- make_cnot local c1 target m BellBased DedicatedCell CorrNever ;;
    Ok (req :: cnot ++ [instr_of (Measure m PZ false); sq target SqS], c2)
  else
    Ok ([req; mpm (obs2 target PZ m PZ); instr_of (Measure m PX false); sq target SqS], c1).

(** Options of the lowering: LSInstructionStreamFromGateStream's members. *)
Record lower_cfg := mkCfg { cfg_local : bool; cfg_corr : correction_mode; cfg_qreg : text }.

(** ls_instruction_stream.cpp:66-163: the instructions pushed for one gate *)
Definition lower_gate (cfg : lower_cfg) (c : N) (g : gate) : outcome (list instr * N) :=
  match g with
  | GBasic t b =>
      match b with
      | GZ => Ok ([sq t SqZ], c)
      | GX => Ok ([sq t SqX], c)
      | GY => Ok ([sq t SqY], c)
      | GH => Ok ([sq t SqH], c)
      | GS => Ok ([sq t SqS], c)
      | GSDg => Ok ([instr_of (SingleOp t SqS true)], c)
      | GTDg => make_t (cfg_local cfg) c t true
      | GT => make_t (cfg_local cfg) c t false
      end
  | GRZ t f =>
      if ((fr_num f =? 1) && (fr_den f =? 1))%Z then Ok ([sq t SqZ], c)
      else if ((fr_num f =? 1) && (fr_den f =? 2))%Z then Ok ([sq t SqS], c)
      else if ((fr_num f =? 1) && (fr_den f =? 4))%Z then make_t (cfg_local cfg) c t false
      else Throw RuntimeError
  | GControlled ctl (SBasic t b) ct pl =>
      match b with
      | GX => make_cnot (cfg_local cfg) c ctl t ct pl (cfg_corr cfg)
      | GZ => do (l, c') <- make_cnot (cfg_local cfg) c ctl t ct pl (cfg_corr cfg) ;;
              Ok (sq t SqH :: l ++ [sq t SqH], c')
      | _ => Throw RuntimeError
      end
  | GControlled _ (SRZ _ _) _ _ => Throw NotImplemented
  | GReset r t => if text_eqb r (cfg_qreg cfg) then Ok ([instr_of (Reset t)], c) else Throw LogicError
  end.

(** ** Streams.  A stream is a state with a "next" operation; the id generator's
    counter is shared by all streams of a pipeline and therefore threaded. *)
Definition next_fn (S : Type) := S -> N -> outcome (option (instr * S * N)).

(** ls_instruction_stream.cpp:57-166: a queue and the gates not yet taken *)
Record lower_state := mkLS { ls_queue : list instr; ls_gates : list gate }.
Definition lower_next (cfg : lower_cfg) : next_fn lower_state := fun st c =>
  match ls_queue st with
  | i :: q => Ok (Some (i, mkLS q (ls_gates st), c))
  | [] => match ls_gates st with
          | [] => Ok None
          | g :: r => do (l, c') <- lower_gate cfg c g ;;
                      match l with
                      | [] => UB UBPop
                      | i :: q => Ok (Some (i, mkLS q r, c'))
                      end
          end
  end.

(** The three injection passes have the same shape: if the queue is empty, take
    an instruction from the source, push its replacement, pop the queue.  [M] is
    the pass's own memory, [expand] what it pushes. *)
Definition expander (M : Type) := M -> N -> instr -> outcome (list instr * M * N).
Record inject_state (S M : Type) := mkIS { is_queue : list instr; is_mem : M; is_src : S }.
Arguments mkIS {S M} _ _ _.
Arguments is_queue {S M} _.
Arguments is_mem {S M} _.
Arguments is_src {S M} _.
Definition inject_next {S M} (expand : expander M) (src : next_fn S) : next_fn (inject_state S M) := fun st c =>
  match is_queue st with
  | i :: q => Ok (Some (i, mkIS q (is_mem st) (is_src st), c))
  | [] => do r <- src (is_src st) c ;;
          match r with
          | None => Ok None
          | Some (i, s', c') =>
              do (l, m', c'') <- expand (is_mem st) c' i ;;
              match l with
              | [] => UB UBPop
              | j :: q => Ok (Some (j, mkIS q m' s', c''))
              end
          end
  end.

(** A client draining a stream. *)
Fixpoint drain {S} (next : next_fn S) (fuel : nat) (st : S) (c : N) : outcome (list instr * N) :=
  match fuel with
  | O => Fuel
  | Datatypes.S f => do r <- next st c ;;
           match r with
           | None => Ok ([], c)
           | Some (i, st', c') => do (l, c'') <- drain next f st' c' ;; Ok (i :: l, c'')
           end
  end.

(** A list as a stream. *)
Definition list_next : next_fn (list instr) := fun l c =>
  match l with [] => Ok None | i :: r => Ok (Some (i, r, c)) end.

(** teleported_s_gate_injection_stream.cpp:37-68 *)
Definition teleport_expand (core : list N) (always_rotate : bool) : expander unit := fun m c i =>
  match op i with
  | SingleOp t SqS _ =>
      if memN t core then
        let '(y, c1) := new_id c in
        Ok ([mkI (YRequest y t None) SIZE_MAX [t];
             mpm (obs2 y PZ t PZ);
             instr_of (Measure y PX false);
             sq t SqZ], m, c1)
      else Ok ([i], m, c)
  | SingleOp t SqH _ =>
      if always_rotate && memN t core then Ok ([i; instr_of (Rotate t)], m, c) else Ok ([i], m, c)
  | _ => Ok ([i], m, c)
  end.

(** catalytic_s_gate_injection_stream.cpp:27-88 *)
Definition catalytic_expand (local : bool) (core : list N) (always_rotate : bool) : expander unit := fun m c i =>
  match op i with
  | SingleOp t SqS _ =>
      if memN t core then
        let '(y, c1) := new_id c in
        do (l1, c2) <- make_cnot local c1 t y ControlFirst NextToControl CorrNever ;;
        do (l2, c3) <- make_cnot local c2 t y ControlFirst NextToControl CorrNever ;;
        Ok (mkI (YRequest y t None) SIZE_MAX [t] :: l1 ++ [sq y SqH; instr_of (Rotate y)] ++
            l2 ++ [sq y SqH; instr_of (Rotate y); mkI (YRequest y t None) SIZE_MAX []], m, c3)
      else Ok ([i], m, c)
  | SingleOp t SqH _ =>
      if always_rotate && memN t core then Ok ([i; instr_of (Rotate t)], m, c) else Ok ([i], m, c)
  | _ => Ok ([i], m, c)
  end.

(** determine_exposed_operators.hpp:14-21, .cpp:7-18 *)
Record exposed := mkEx { x_exposed : bool; z_exposed : bool }.
Definition is_exposed (e : exposed) (p : pauli) : bool :=
  match p with PX => x_exposed e | PZ => z_exposed e | _ => false end.
Definition rotate_exposed (e : exposed) : exposed := mkEx (negb (x_exposed e)) (negb (z_exposed e)).

(** the ordered_map from patch to exposed operators *)
Definition emap := list (N * exposed).
Fixpoint alookup {A} (m : list (N * A)) (k : N) : option A :=
  match m with [] => None | (k', v) :: r => if N.eqb k k' then Some v else alookup r k end.
Fixpoint aset {A} (m : list (N * A)) (k : N) (v : A) : list (N * A) :=
  match m with [] => [] | (k', v') :: r => if N.eqb k k' then (k', v) :: r else (k', v') :: aset r k v end.

(** Push a rotation if [p] is not exposed on a tracked patch. *)
Definition expose (m : emap) (q : N) (p : pauli) : list instr * emap :=
  match alookup m q with
  | Some e => if is_exposed e p then ([], m) else ([instr_of (Rotate q)], aset m q (rotate_exposed e))
  | None => ([], m)
  end.

(** boundary_rotation_injection_stream.cpp:33-85 *)
Definition boundary_expand : expander emap := fun m c i =>
  match op i with
  | MultiMeasure obs _ _ =>
      do (l, m') <- foldM (fun acc q =>
           let '(l, m) := acc in
           match alookup m q with
           | None => Ok (l, m)
           | Some _ => match alookup obs q with
                       | None => Throw OutOfRange
                       | Some p => let '(l', m') := expose m q p in Ok (l ++ l', m')
                       end
           end) (operating_patches i) ([], m) ;;
      Ok (l ++ [i], m', c)
  | BellCNOT ctl tgt _ _ _ _ _ _ =>
      let '(l1, m1) := expose m ctl PZ in
      let '(l2, m2) := expose m1 tgt PX in
      Ok (l1 ++ l2 ++ [i], m2, c)
  | SingleOp t SqH _ =>
      match alookup m t with
      | Some e => Ok ([i], aset m t (rotate_exposed e), c)
      | None => Ok ([i], m, c)
      end
  | SingleOp t SqS _ => let '(l, m') := expose m t PZ in Ok (l ++ [i], m', c)
  | _ => Ok ([i], m, c)
  end.

(** ls_instruction_stream.cpp:170-177 *)
Definition core_qubits_from_qreg (size : N) : list N := map N.of_nat (seq 0 (N.to_nat size)).

(** slicer.cpp:386-390 on the LLI path: [*std::max(begin, end)] compares the
    two iterators, not the elements, and dereferences the larger one.  The
    iterators of tsl::ordered_set are random access; here they are positions. *)
Definition lli_id_start (core : list N) : outcome N :=
  deref (nth_error core (Nat.max 0 (length core))).
(** slicer.cpp:439 on the QASM path *)
Definition qasm_id_start (qreg_size : N) : N := qreg_size.

(** slicer.cpp:446-505: the pass pipelines behind a circuit of gates.  Compact:
    boundary rotations then teleported S; EDPC: teleported or catalytic S with
    rotations after H. *)
Definition compact_next (cfg : lower_cfg) (core : list N) :=
  inject_next (teleport_expand core false) (inject_next boundary_expand (lower_next cfg)).
Definition edpc_next (cfg : lower_cfg) (core : list N) :=
  inject_next (teleport_expand core true) (lower_next cfg).
Definition catalytic_next (cfg : lower_cfg) (core : list N) :=
  inject_next (catalytic_expand (cfg_local cfg) core true) (lower_next cfg).
