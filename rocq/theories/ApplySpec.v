(** Independent vocabulary for what instructions do to a slice. *)
From Verif Require Import Base PatchesModel LayoutModel LayoutSpec InstrModel InstrSpec.
From Verif Require Import SliceModel SliceSpec RouterModel RouterSpec ApplyModel.
Open Scope Z_scope.

(** ** Changes to a slice *)

(** Everything in a slice apart from its tiles is the same. *)
Definition rest_same (s s' : slice) : Prop :=
  s_magic s' = s_magic s /\ s_timers s' = s_timers s /\ s_yavail s' = s_yavail s
  /\ s_crossing s' = s_crossing s /\ s_rough s' = s_rough s /\ s_smooth s' = s_smooth s.

(** The tiles of [s], overridden by the list [u] (earlier entries win). *)
Fixpoint over (u : list (cell * tile)) (s : slice) (c : cell) : tile :=
  match u with
  | [] => tile_at s c
  | (c', t) :: r => if cell_eqb c' c then t else over r s c
  end.
Definition becomes (s s' : slice) (u : list (cell * tile)) : Prop :=
  (forall c, tile_at s' c = over u s c) /\ rest_same s s'.

(** ** Patches *)

(** The patch with another activity, or joined on one side. *)
Definition doing (a : activity) (p : dpatch) : dpatch :=
  mkDP (mkPatch (p_type (dp p)) a (p_id (dp p)) (p_label (dp p)) (p_op (dp p))) (db p).
Definition named (id : option N) (p : dpatch) : dpatch :=
  mkDP (mkPatch (p_type (dp p)) (p_act (dp p)) id (p_label (dp p)) (p_op (dp p))) (db p).
Definition joined (d : dir) (p : dpatch) : dpatch :=
  mkDP (dp p) (set_side (db p) d (mkB (btype (side (db p) d)) true)).

(** A patch with nothing going on is on the tile. *)
Definition idle (s : slice) (c : cell) (p : dpatch) : Prop :=
  tile_at s c = Some p /\ p_act (dp p) = ANone /\ forall d, bactive (side (db p) d) = false.

(** A tile a local operation may claim: an empty one or, when crossing routes
    are in use, one that has been set aside for them. *)
Definition claimable (edpc : bool) (s : slice) (c : cell) : Prop :=
  tile_at s c = None
  \/ edpc = true /\ exists p, tile_at s c = Some p /\ (p_act (dp p) = AEDPC \/ p_act (dp p) = AReserved).

(** ** Local operations: when they apply and what they change *)
Inductive local_effect (edpc : bool) (s : slice) : local_instr -> list (cell * tile) -> Prop :=
| le_prepare_y id c : tile_at s c = None ->
    local_effect edpc s (LPrepareY id c) [(c, Some (doing AUnitary (square id (Some (lit "Y State")))))]
| le_bell_prepare id1 id2 c d : claimable edpc s c -> claimable edpc s (step c d) ->
    local_effect edpc s (LBellPrepare id1 id2 c (step c d))
      [(c, Some (joined d (square id1 (Some (lit "Bell 1")))));
       (step c d, Some (joined (dir_not d) (square id2 (Some (lit "Bell 2")))))]
| le_bell_measure c d p q : idle s c p -> idle s (step c d) q ->
    local_effect edpc s (LBellMeasure c (step c d))
      [(c, Some (doing AMeasurement (joined d p))); (step c d, Some (doing AMeasurement (joined (dir_not d) q)))]
| le_two_patch c d p q : idle s c p -> idle s (step c d) q ->
    local_effect edpc s (LTwoPatchMeasure c (step c d))
      [(c, Some (joined d p)); (step c d, Some (joined (dir_not d) q))]
| le_extend id c d p : idle s c p -> claimable edpc s (step c d) ->
    local_effect edpc s (LExtendSplit id c (step c d))
      [(c, Some (joined d p)); (step c d, Some (joined (dir_not d) (square id (Some (lit "Extended")))))]
| le_merge c d p q : idle s c p -> idle s (step c d) q ->
    local_effect edpc s (LMergeContract c (step c d))
      [(c, Some (joined d p)); (step c d, Some (doing AMeasurement (joined (dir_not d) q)))]
| le_move c d p new_id : idle s c p -> claimable edpc s (step c d) ->
    local_effect edpc s (LMove c (step c d) new_id)
      [(c, Some (named None (doing AMeasurement (joined d p))));
       (step c d, Some (joined (dir_not d)
          (square (match new_id with Some x => Some x | None => p_id (dp p) end) (Some (lit "Move")))))].

(** The tiles and ids a local operation mentions. *)
Definition local_cells (l : local_instr) : list cell :=
  match l with
  | LPrepareY _ c => [c]
  | LBellPrepare _ _ a b | LBellMeasure a b | LTwoPatchMeasure a b | LExtendSplit _ a b
  | LMergeContract a b | LMove a b _ => [a; b]
  end.
Definition opt_id (o : option N) : list N := match o with Some x => [x] | None => [] end.
Definition local_ids (l : local_instr) : list N :=
  match l with
  | LPrepareY id _ | LExtendSplit id _ _ | LMove _ _ id => opt_id id
  | LBellPrepare a b _ _ => opt_id a ++ opt_id b
  | LBellMeasure _ _ | LTwoPatchMeasure _ _ | LMergeContract _ _ => []
  end.

(** ** Instructions: when they apply and what they change *)

(** The tiles, the list of magic states and the number of available Y states
    become the given ones; the rest is the same. *)
Definition changed (s s' : slice) (u : list (cell * tile)) (magic : list cell) (y : N) : Prop :=
  (forall c, tile_at s' c = over u s c) /\ s_magic s' = magic /\ s_yavail s' = y
  /\ s_timers s' = s_timers s /\ s_crossing s' = s_crossing s
  /\ s_rough s' = s_rough s /\ s_smooth s' = s_smooth s.

(** Patch [p] with the given id is on tile [c]. *)
Definition sits (s : slice) (id : N) (c : cell) (p : dpatch) : Prop :=
  tile_at s c = Some p /\ p_id (dp p) = Some id.

(** A routing tile, joined as drawn. *)
Definition routing (act : activity) (opid : option N) (sc : scell) : cell * tile :=
  (sc_cell sc, Some (mkDP (mkPatch TRouting act None None opid) (sc_b sc))).

(** Joining a side of whatever is on a tile. *)
Definition join_side (c : cell) (d : dir) (t : tile) : cell * tile :=
  (c, match t with Some p => Some (joined d p) | None => None end).

(** A lattice surgery operation between the patches [source] and [target] along
    the routing tiles [cells], the first next to the target and the last next to
    the source.  [source] and [target] may be the same patch. *)
Inductive merging (opid : option N) (s : slice) (source target : N) (cells : list scell)
  : list (cell * tile) -> Prop :=
| merging_intro a p b q da db :
    sits s source a p -> idle s a p -> sits s target b q -> idle s b q ->
    step a da = match cells with [] => b | first :: _ => sc_cell (last cells first) end ->
    step b db = match cells with [] => a | first :: _ => sc_cell first end ->
    NoDup (map sc_cell cells) -> (forall sc, In sc cells -> tile_at s (sc_cell sc) = None) ->
    merging opid s source target cells
      (rev (map (routing AMultiPatch opid) cells)
       ++ [join_side b db (over [join_side a da (Some p)] s b); join_side a da (Some p)]).

(** A side of the rotation of a patch: the two tiles are joined to each other. *)
Definition rotating (c : cell) (d : dir) : scell :=
  mkSC (set_side (mkBounds (mkB BNone false) (mkB BNone false) (mkB BNone false) (mkB BNone false))
                 d (mkB BConnected true)) c.
(** A quarter turn. *)
Definition turned (b : bounds) : bounds :=
  mkBounds (side b DLeft) (side b DRight) (side b DBottom) (side b DTop).

Definition dist (a b : cell) : Z := Z.abs (row a - row b) + Z.abs (col a - col b).
Definition nearest (P : cell -> Prop) (n c : cell) : Prop := P c /\ forall c', P c' -> dist c n <= dist c' n.

(** The tiles a standalone patch puts something on, and what. *)
Definition placed (p : spatch) : list (cell * tile) :=
  match sp_cells p with
  | Single sc => [(sc_cell sc, Some (mkDP (sp_patch p) (sc_b sc)))]
  | Multi l => map (fun sc => (sc_cell sc, Some (mkDP (mkPatch TDistillation ANone None None None) (sc_b sc)))) l
  end.
Definition cleared (r : region) : list (cell * tile) := map (fun sc => (sc_cell sc, None)) (rg_cells r).

(** What a successful instruction does (all but the long-range Bell operations),
    and what it leaves to be done. *)
Inductive effect (e : env) (w : world) : operation -> list (cell * tile) -> list cell -> N -> list instr -> Prop :=
| ef_measure t b n c p : let s := w_slice w in sits s t c p ->
    effect e w (Measure t b n) [(c, Some (doing AMeasurement p))] (s_magic s) (s_yavail s) []
| ef_pauli t o dg c p : let s := w_slice w in sits s t c p -> idle s c p -> o <> SqH -> o <> SqS ->
    effect e w (SingleOp t o dg) [] (s_magic s) (s_yavail s) []
| ef_hadamard t dg c p : let s := w_slice w in sits s t c p -> idle s c p ->
    effect e w (SingleOp t SqH dg) [(c, Some (mkDP (dp (doing AUnitary p)) (turned (db p))))]
           (s_magic s) (s_yavail s) []
| ef_phase t dg reg cache u : let s := w_slice w in e_edpc e = false ->
    e_route e (w_cache w) s t PX t PZ = Ok (Some reg, cache) ->
    merging (if e_opids e then Some (w_ops w) else rg_id reg) s t t (rg_cells reg) u ->
    effect e w (SingleOp t SqS dg) u (s_magic s) (s_yavail s) [instr_of (SingleOp t SqZ false)]
| ef_multi a pa b pb neg l reg cache u : let s := w_slice w in e_edpc e = false -> e_local e = false ->
    e_route e (w_cache w) s a pa b pb = Ok (Some reg, cache) ->
    merging (if e_opids e then Some (w_ops w) else rg_id reg) s a b (rg_cells reg) u ->
    effect e w (MultiMeasure [(a, pa); (b, pb)] neg l) u (s_magic s) (s_yavail s) []
| ef_multi_local a pa b pb neg l ca p cb q u : let s := w_slice w in e_local e = true ->
    sits s a ca p -> sits s b cb q -> local_effect (e_edpc e) s (LTwoPatchMeasure ca cb) u ->
    effect e w (MultiMeasure [(a, pa); (b, pb)] neg l) u (s_magic s) (s_yavail s) []
| ef_init t st c before later : let s := w_slice w in l_ancilla (e_layout e) = before ++ c :: later ->
    (forall c', In c' before -> tile_at s c' <> None) -> tile_at s c = None ->
    effect e w (Init t st None) [(c, Some (square (Some t) (Some (lit "Init"))))] (s_magic s) (s_yavail s) []
| ef_init_near t st x n c : let s := w_slice w in carries s n (pnt_target x) -> shows s n c (pnt_op x) ->
    tile_at s c = None ->
    effect e w (Init t st (Some x)) [(c, Some (square (Some t) (Some (lit "Init"))))] (s_magic s) (s_yavail s) []
| ef_rotate t c p d : let s := w_slice w in sits s t c p -> tile_at s (step c d) = None ->
    effect e w (Rotate t)
      [routing ARotation None (rotating c d); routing ARotation None (rotating (step c d) (dir_not d))]
      (s_magic s) (s_yavail s)
      [instr_of (Busy (mkRegion [rotating c d; rotating (step c d) (dir_not d)] None) 2
         [mkSP (mkPatch (p_type (dp p)) (if act_eqb (p_act (dp p)) AUnitary then ANone else p_act (dp p)) (Some t) None None)
               (Single (mkSC (turned (db p)) c))])]
| ef_magic t near n c p : let s := w_slice w in carries s n near ->
    nearest (fun c => In c (s_magic s)) n c -> tile_at s c = Some p ->
    effect e w (MagicRequest t near)
      [(c, Some (mkDP (mkPatch TQubit ANone (Some t) (p_label (dp p)) (p_op (dp p))) (db p)))]
      (cset_erase c (s_magic s)) (s_yavail s) []
| ef_y_return t near l c p : let s := w_slice w in sits s t c p ->
    effect e w (YRequest t near l) [(c, Some (named None p))] (s_magic s) (u32 (s_yavail s + 1)) []
| ef_y_take t near l n c p : let s := w_slice w in ~ (e_local e = true /\ e_twists e = true) ->
    s_yavail s <> 0%N -> (forall c, ~ carries s c t) -> carries s n near ->
    nearest (fun c => In c (l_ystates (e_layout e)) /\ exists p, idle s c p /\ p_id (dp p) = None) n c ->
    tile_at s c = Some p ->
    effect e w (YRequest t near l) [(c, Some (named (Some t) p))] (s_magic s) (s_yavail s - 1)%N []
| ef_y_twist t near l n c : let s := w_slice w in e_twists e = true ->
    (e_local e = true \/ s_yavail s = 0%N) -> (forall c, ~ carries s c t) -> carries s n near ->
    shows s n c PZ -> tile_at s c = None ->
    effect e w (YRequest t near l) [(c, Some (doing AUnitary (square (Some t) (Some (lit "Y State")))))]
           (s_magic s) (s_yavail s) []
| ef_busy_wait reg steps after : let s := w_slice w in (0 < steps)%N ->
    effect e w (Busy reg steps after) [] (s_magic s) (s_yavail s) [instr_of (Busy reg (steps - 1) after)]
| ef_busy_done reg after : let s := w_slice w in
    NoDup (map fst (flat_map placed after)) ->
    (forall c, In c (map fst (flat_map placed after)) -> over (cleared reg) s c = None) ->
    effect e w (Busy reg 0 after) (rev (flat_map placed after) ++ cleared reg) (s_magic s) (s_yavail s) []
| ef_reset t : let s := w_slice w in effect e w (Reset t) [] (s_magic s) (s_yavail s) [].

(** ** Sequences of local operations *)

(** The local operations were applied one after the other. *)
Inductive ran (edpc : bool) : slice -> list local_instr -> slice -> Prop :=
| ran_nil s : ran edpc s [] s
| ran_cons s l u s1 ls s' : local_effect edpc s l u -> becomes s s1 u -> ran edpc s1 ls s' ->
    ran edpc s (l :: ls) s'.

(** As many as possible were applied: [rest] is what is left. *)
Definition advanced (edpc : bool) (s : slice) (todo : list local_instr) (s' : slice) (rest : list local_instr)
  : Prop :=
  exists done, todo = done ++ rest /\ ran edpc s done s'
    /\ match rest with [] => True | l :: _ => forall u, ~ local_effect edpc s' l u end.

(** The local operations an instruction that has been started still has to do
    in its current phase (there are phases only when crossing routes are in use). *)
Definition pending (edpc : bool) (o : operation) : list local_instr :=
  match o with
  | BellInit _ _ _ _ (Some ls) (Some (_, k)) => skipn k ls
  | BellCNOT _ _ _ _ _ (Some cs) (Some sets) phase =>
      let ph := if edpc then match phase with Some x => x | None => 0%nat end else 0%nat in
      match nth_error cs ph, nth_error sets ph with
      | Some (_, k), Some ls => skipn k ls
      | _, _ => []
      end
  | _ => []
  end.
(** A long-range operation that has not been started. *)
Definition unstarted (o : operation) : Prop :=
  match o with BellInit _ _ _ _ _ None | BellCNOT _ _ _ _ _ None _ _ => True | _ => False end.

(** The local operations of a long-range operation that starts now. *)
Definition planned (e : env) (w : world) (o : operation) (todo : list local_instr) : Prop :=
  let s := w_slice w in
  match o with
  | BellInit s1 s2 l1 l2 _ None => exists reg cache la lb,
      e_route e (w_cache w) s (pnt_target l1) (pnt_op l1) (pnt_target l2) (pnt_op l2) = Ok (Some reg, cache)
      /\ compile_bell LRPrep ([], []) (map sc_cell (rg_cells reg)) 0 (length (rg_cells reg) - 1) false
           (Some s1) (Some s2) = Ok (la, lb)
      /\ todo = la ++ lb
  | BellCNOT control target s1 s2 _ None _ _ => exists reg cache cc ct la lb,
      e_route e (w_cache w) s control PZ target PX = Ok (Some reg, cache) /\ (2 <= length (rg_cells reg))%nat
      /\ (exists p, sits s control cc p /\ idle s cc p) /\ (exists p, sits s target ct p /\ idle s ct p)
      /\ compile_cnot ([], []) (ct :: map sc_cell (rg_cells reg) ++ [cc]) s1 s2 = Ok (la, lb)
      /\ todo = la ++ lb
  | _ => False
  end.

(** ** Marking a crossing route *)

(** Routing tiles were put on some of the empty tiles of [cells]; on all other
    tiles only the sides of patches may have been altered. *)
Definition marked (opid : option N) (cells : list cell) (s s' : slice) : Prop :=
  (forall c p, tile_at s c = Some p -> exists b, tile_at s' c = Some (mkDP (dp p) b))
  /\ (forall c, tile_at s c = None -> tile_at s' c = None
        \/ In c cells /\ exists b, tile_at s' c = Some (mkDP (mkPatch TRouting AEDPC None None opid) b))
  /\ s_magic s' = s_magic s /\ s_timers s' = s_timers s /\ s_yavail s' = s_yavail s.
