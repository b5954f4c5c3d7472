(** Model of src/scheduler/wave_scheduler.cpp, include/lsqecc/scheduler/wave_scheduler.hpp and of the
    loop around it, src/patches/dense_patch_computation.cpp:1594-1625.

    Simplifications: instruction ids are unbounded (uint32_t in the code, asserted); WaveStats
    is not modelled (its only user ignores it). *)
From Verif Require Import Base PatchesModel LayoutModel InstrModel LoweringModel SliceModel MarksModel RouterModel ApplyModel RunModel.

(** [LSInstruction::operator==], ls_instructions.hpp:171, all members by [= default] *)
Definition instr_eq_dec (x y : instr) : {x = y} + {x <> y}.
Proof.
  assert (cd : forall a b : cell, {a = b} + {a <> b}) by (decide equality; apply Z.eq_dec).
  assert (bd : forall a b : bounds, {a = b} + {a <> b}) by (decide equality; apply boundary_eq_dec).
  assert (sd : forall a b : scell, {a = b} + {a <> b}) by (decide equality).
  assert (td : forall a b : text, {a = b} + {a <> b}) by (apply list_eq_dec, Ascii.ascii_dec).
  assert (od : forall a b : option N, {a = b} + {a <> b}) by (decide equality; apply N.eq_dec).
  assert (pd : forall a b : patch, {a = b} + {a <> b}).
  { decide equality; [decide equality|apply activity_eq_dec|apply patch_type_eq_dec]. }
  assert (ld : forall a b : local_instr, {a = b} + {a <> b}) by (decide equality).
  assert (lld : forall a b : list local_instr, {a = b} + {a <> b}) by (apply list_eq_dec, ld).
  assert (nd : forall a b : place_next_to, {a = b} + {a <> b}) by (decide equality; [apply pauli_eq_dec|apply N.eq_dec]).
  assert (rd : forall a b : region, {a = b} + {a <> b}) by (decide equality; apply list_eq_dec, sd).
  assert (spd : forall a b : spatch, {a = b} + {a <> b}).
  { decide equality. decide equality. apply list_eq_dec, sd. }
  assert (nn : forall a b : nat * nat, {a = b} + {a <> b}) by (decide equality; apply Nat.eq_dec).
  assert (ob : forall a b : list (N * pauli), {a = b} + {a <> b}).
  { apply list_eq_dec. decide equality; [apply pauli_eq_dec|apply N.eq_dec]. }
  assert (opd : forall a b : operation, {a = b} + {a <> b}).
  { decide equality; try apply N.eq_dec; try apply bool_dec; try apply pauli_eq_dec; try exact (ob _ _); try exact (rd _ _); try exact (nd _ _);
      try (decide equality; fail); try (apply list_eq_dec, N.eq_dec); try (apply list_eq_dec, spd).
    all: decide equality; try apply Nat.eq_dec; try (apply list_eq_dec; assumption); try (decide equality; apply Nat.eq_dec). }
  decide equality; [apply list_eq_dec, N.eq_dec|apply N.eq_dec].
Defined.

(** wave_scheduler.hpp:43-81.  [v_moved] counts how often [records_] was moved to
    larger storage: references into it are then invalid. *)
Record wave_st := mkWS {
  v_world : world;
  v_recs : list (instr * list nat);      (* records_: instruction, dependents *)
  v_counts : list N;                     (* dependency_counts_, uint8_t *)
  v_prox : list nat; v_heads : list nat; v_defer : list nat;   (* current_wave_ *)
  v_nprox : list nat; v_nheads : list nat;                     (* next_wave_; nothing is ever deferred in it *)
  v_moved : nat;
  v_tally : tally }.

Definition with_world (s : wave_st) (w : world) : wave_st :=
  mkWS w (v_recs s) (v_counts s) (v_prox s) (v_heads s) (v_defer s) (v_nprox s) (v_nheads s) (v_moved s) (v_tally s).
Definition with_recs (s : wave_st) (r : list (instr * list nat)) : wave_st :=
  mkWS (v_world s) r (v_counts s) (v_prox s) (v_heads s) (v_defer s) (v_nprox s) (v_nheads s) (v_moved s) (v_tally s).
Definition with_counts (s : wave_st) (c : list N) : wave_st :=
  mkWS (v_world s) (v_recs s) c (v_prox s) (v_heads s) (v_defer s) (v_nprox s) (v_nheads s) (v_moved s) (v_tally s).
Definition with_tally (s : wave_st) (t : tally) : wave_st :=
  mkWS (v_world s) (v_recs s) (v_counts s) (v_prox s) (v_heads s) (v_defer s) (v_nprox s) (v_nheads s) (v_moved s) t.
Definition push_head (s : wave_st) (id : nat) : wave_st :=
  mkWS (v_world s) (v_recs s) (v_counts s) (v_prox s) (v_heads s ++ [id]) (v_defer s) (v_nprox s) (v_nheads s) (v_moved s) (v_tally s).
Definition push_defer (s : wave_st) (id : nat) : wave_st :=
  mkWS (v_world s) (v_recs s) (v_counts s) (v_prox s) (v_heads s) (v_defer s ++ [id]) (v_nprox s) (v_nheads s) (v_moved s) (v_tally s).
Definition push_nprox (s : wave_st) (id : nat) : wave_st :=
  mkWS (v_world s) (v_recs s) (v_counts s) (v_prox s) (v_heads s) (v_defer s) (v_nprox s ++ [id]) (v_nheads s) (v_moved s) (v_tally s).
Definition push_nhead (s : wave_st) (id : nat) : wave_st :=
  mkWS (v_world s) (v_recs s) (v_counts s) (v_prox s) (v_heads s) (v_defer s) (v_nprox s) (v_nheads s ++ [id]) (v_moved s) (v_tally s).

(** [v[n] = x] *)
Definition put {B} (n : nat) (x : B) (l : list B) : list B := firstn n l ++ x :: skipn (S n) l.
(** [v[n]]; beyond the end it is undefined *)
Definition elem {B} (t : tally) (l : list B) (n : nat) : progress B :=
  match nth_error l n with Some x => Go x | None => Halt t (Undefined UBIndex) end.

(** ** The constructor, wave_scheduler.cpp:11-60 *)
Record setup := mkSetup { u_recs : list (instr * list nat); u_counts : list N; u_heads : list nat; u_last : list (N * nat) }.
(** 40-53, for one patch of instruction number [id] *)
Definition note_patch (id : nat) (st : list (instr * list nat) * N * bool * list (N * nat)) (q : N) :=
  let '(recs, count, head, last) := st in
  match alookup last q with
  | Some k =>
      match nth_error recs k with
      | Some (x, ds) => (put k (x, ds ++ [id]) recs, ((count + 1) mod 256)%N, false, (q, id) :: last)
      | None => (recs, ((count + 1) mod 256)%N, false, (q, id) :: last)
      end
  | None => (recs, count, head, (q, id) :: last)
  end.
(** 27-59 *)
Definition note_instr (u : setup) (i : instr) : setup :=
  let id := length (u_recs u) in
  let '(recs, count, head, last) := fold_left (note_patch id) (patch_dependencies i) (u_recs u ++ [(i, [])], 0%N, true, u_last u) in
  mkSetup recs (u_counts u ++ [count]) (if head : bool then u_heads u ++ [id] else u_heads u) last.
Definition setup_of (prog : list instr) : setup := fold_left note_instr prog (mkSetup [] [] [] []).
Definition wave_init (prog : list instr) (w : world) : wave_st :=
  let u := setup_of prog in mkWS w (u_recs u) (u_counts u) [] (u_heads u) [] [] [] 0 tally0.

(** wave_scheduler.cpp:209-249 *)
Definition is_immediate (i : instr) : outcome bool :=
  match op i with
  | SingleOp _ SqH _ | SingleOp _ SqS _ => Ok false
  | SingleOp _ SqZeroValue _ => Throw Unreachable
  | Busy _ _ _ => Ok false
  | Declare _ => Throw Unreachable
  | _ => Ok true
  end.

Section Wave.
Variable e : env.
Variable late : nat -> bool.
(** Whether appending to a [records_] of this size moves it. *)
Variable grow : nat -> bool.

(** [followup_instructions.size() == 1 && followup_instructions[0] == instruction] *)
Definition reschedules (follow : list instr) (i : instr) : bool :=
  match follow with [j] => if instr_eq_dec j i then true else false | _ => false end.

(** try_apply_instruction_direct_followup on a reference into [records_] *)
Definition attempt (s : wave_st) (id : nat) : progress (instr * applied * wave_st) :=
  let t := v_tally s in
  let! (x, ds) := elem t (v_recs s) id in
  let! a := lift t (try_apply e (v_world s) x) in
  let x' := tried x a in
  Go (x', a, with_recs (with_world s (a_world a)) (put id (x', ds) (v_recs s))).

(** [++res.ls_instructions_count_; instruction_visitor(instruction);] *)
Definition report (s : wave_st) (x : instr) : wave_st := with_tally s (saw (more_instrs (v_tally s)) (Applied x)).

(** [records_.push_back({followup, dependents}); dependency_counts_.push_back(0);] *)
Definition push_record (s : wave_st) (x : instr) (ds : list nat) : wave_st :=
  mkWS (v_world s) (v_recs s ++ [(x, ds)]) (v_counts s ++ [0%N]) (v_prox s) (v_heads s) (v_defer s) (v_nprox s) (v_nheads s)
       (if grow (length (v_recs s)) then S (v_moved s) else v_moved s) (v_tally s).

(** wave_scheduler.cpp:251-286, with the function it calls back given *)
Definition immediately (dependents : wave_st -> nat -> list instr -> progress wave_st) (s : wave_st) (id : nat) : progress (bool * wave_st) :=
  let! (x, _) := elem (v_tally s) (v_recs s) id in
  let! imm := lift (v_tally s) (is_immediate x) in
  if negb imm then Go (false, s)
  else
    let! (x, a, s) := attempt s id in
    if a_error a then
      if reschedules (a_follow a) x then Go (true, push_defer s id) else Go (false, s)
    else
      let s := report s x in
      if reschedules (a_follow a) x then Go (true, push_nprox s id)
      else let! s := dependents s id (a_follow a) in Go (true, s).

(** wave_scheduler.cpp:171-192: the loop over [dependents], a reference into [records_], which the recursion may
    move; reading another element then is undefined.  [m] is [v_moved] when the reference was taken. *)
Fixpoint release (imm : wave_st -> nat -> progress (bool * wave_st)) (proximate : bool) (m : nat) (ds : list nat) (s : wave_st) : progress wave_st :=
  match ds with
  | [] => Go s
  | d :: r =>
    if negb (Nat.eqb (v_moved s) m) then Halt (v_tally s) (Undefined UBDangling)
    else
      let! c := elem (v_tally s) (v_counts s) d in
      let c := ((c + 255) mod 256)%N in
      let s := with_counts s (put d c (v_counts s)) in
      let! s :=
        if negb (N.eqb c 0) then Go s
        else if proximate then
          let! (x, _) := elem (v_tally s) (v_recs s) d in
          let! now := lift (v_tally s) (is_immediate x) in
          Go (if now : bool then push_head s d else push_nhead s d)
        else
          let! (ok, s) := imm s d in
          Go (if ok : bool then s else push_nhead s d) in
      release imm proximate m r s
  end.

(** wave_scheduler.cpp:165-206.  The fuel bounds the depth of the recursion. *)
Fixpoint dependents (fuel : nat) (proximate : bool) (s : wave_st) (id : nat) (follow : list instr) : progress wave_st :=
  match fuel with
  | O => Halt (v_tally s) Unended
  | S f =>
    let m := v_moved s in
    let! (_, ds) := elem (v_tally s) (v_recs s) id in
    match follow with
    | [] => release (immediately (dependents f proximate)) proximate m ds s
    | _ =>
        let delta := N.of_nat (length follow - 1) in
        let! s := pfold (fun s d => let! c := elem (v_tally s) (v_counts s) d in
                                    Go (with_counts s (put d ((c + delta) mod 256)%N (v_counts s)))) ds s in
        pfold (fun s j =>
          if negb (Nat.eqb (v_moved s) m) then Halt (v_tally s) (Undefined UBDangling)
          else
            let fid := length (v_recs s) in
            let s := push_record s j ds in
            let! (ok, s) := immediately (dependents f proximate) s fid in
            Go (if ok : bool then s else push_nprox s fid)) follow s
    end
  end.

(** Enough for every recursion, WaveProofs. *)
Definition depth (s : wave_st) : nat := 2 * length (v_recs s) + 3.

(** The body of the loop of wave_scheduler.cpp:104-163 *)
Definition schedule_one (proximate deferred : bool) (s : wave_st) (id : nat) : progress wave_st :=
  let! (x, a, s) := attempt s id in
  if negb (a_error a) then
    let s := report s x in
    if reschedules (a_follow a) x then Go (push_nprox s id)
    else dependents (depth s) proximate s id (a_follow a)
  else if reschedules (a_follow a) x then Go (push_defer s id)
  else if deferred then Go s
  else if proximate then Halt (v_tally s) (Failed RuntimeError)
  else if N.eqb (wait x) 0 then Halt (v_tally s) (Failed RuntimeError)
  else
    let! (_, ds) := elem (v_tally s) (v_recs s) id in
    Go (push_nhead (with_recs s (put id (mkI (op x) (wait x - 1) (clients x), ds) (v_recs s))) id).

(** wave_scheduler.cpp:79-91: the boundaries that were marked are given back their types *)
Definition unmark (s : wave_st) : progress wave_st :=
  let! sl := lift (v_tally s) (give_back (w_slice (v_world s))) in
  Go (with_world s (with_slice (v_world s) sl)).

(** wave_scheduler.cpp:62-102 *)
Definition schedule_wave (s : wave_st) : progress wave_st :=
  let! s := pfold (schedule_one true false) (v_prox s) s in
  let! s := pfold (schedule_one false false) (v_heads s) s in
  let! s :=
    if e_edpc e then
      let! s := pfold (schedule_one false true) (v_defer s) s in
      let! s := unmark s in
      pfold (schedule_one false true) (v_defer s) s
    else Go s in
  Go (mkWS (v_world s) (v_recs s) (v_counts s) (v_nprox s) (v_nheads s) [] [] [] (v_moved s) (v_tally s)).

(** One turn of the loop, dense_patch_computation.cpp:1612-1620 *)
Definition wave_step (s : wave_st) : progress wave_st :=
  match v_prox s, v_heads s with
  | [], [] => Halt (v_tally s) Finished
  | _, _ =>
      let! s := schedule_wave s in
      let! t := visit late (v_tally s) (w_slice (v_world s)) in
      let! w := advance e t (v_world s) in
      Go (with_tally (with_world s w) (more_slices t))
  end.
End Wave.
