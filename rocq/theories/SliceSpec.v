(** Independent vocabulary for the properties of slices. *)
From Verif Require Import Base PatchesModel LayoutModel LayoutSpec SliceModel.
Open Scope Z_scope.

(** What is on tile [c]; nothing is on tiles outside the lattice. *)
Definition tile_at (s : slice) (c : cell) : tile :=
  if (row c <? 0) || (col c <? 0) then None else
  match nth_error (s_cells s) (Z.to_nat (row c)) with
  | Some r => match nth_error r (Z.to_nat (col c)) with Some t => t | None => None end
  | None => None
  end.

(** The slice has the dimensions of a lattice with the given far corner. *)
Definition sized (far : cell) (s : slice) : Prop :=
  0 <= row far /\ 0 <= col far
  /\ Z.of_nat (length (s_cells s)) = row far + 1
  /\ Forall (fun r => Z.of_nat (length r) = col far + 1) (s_cells s).

(** The patch with the given id is on tile [c]. *)
Definition carries (s : slice) (c : cell) (id : N) : Prop :=
  exists p, tile_at s c = Some p /\ p_id (dp p) = Some id.

(** No id is on two tiles. *)
Definition unique_ids (s : slice) : Prop :=
  forall c c' id, carries s c id -> carries s c' id -> c = c'.

(** The square patch of the code base: smooth above and below, rough left and
    right, nothing going on. *)
Definition square (id : option N) (label : option text) : dpatch :=
  mkDP (mkPatch TQubit ANone id label None)
       (mkBounds (mkB BSmooth false) (mkB BSmooth false) (mkB BRough false) (mkB BRough false)).

(** An available magic state: prepared, square, not bound to any id. *)
Definition magic_tile : dpatch :=
  mkDP (mkPatch TPreparedState ANone None (Some (lit "Magic State")) None)
       (mkBounds (mkB BSmooth false) (mkB BSmooth false) (mkB BRough false) (mkB BRough false)).

(** The tiles that start out occupied, by kind. *)
Definition core_cells (L : layout) : list cell := flat_map get_cells (l_core L).
Definition region_cells (L : layout) : list cell := map sc_cell (concat (l_regions L)).
Definition taken (L : layout) : list cell :=
  core_cells L ++ l_ystates L ++ region_cells L ++ l_reserved L ++ l_dead L.

(** What every layout made from a text satisfies (proved in SliceProofs). *)
Record layout_wf (L : layout) : Prop := {
  lw_far : on_lattice (l_furthest L) (mkCell 0 0);
  lw_core : exists cells, l_core L = map (fun c => basic_square_patch c None None) cells;
  lw_disjoint : NoDup (taken L);
  lw_on : forall c, In c (taken L) -> on_lattice (l_furthest L) c;
  lw_ancilla : forall c, In c (l_ancilla L) -> on_lattice (l_furthest L) c /\ ~ In c (taken L);
  lw_queues : length (l_queues L) = length (l_regions L);
  lw_queue : forall q c, In q (l_queues L) -> In c q -> on_lattice (l_furthest L) c /\ ~ In c (taken L);
  lw_times : length (l_times L) = (length (l_regions L) + length (l_reserved L))%nat;
  lw_u32 : Forall (fun t => (t < 2 ^ 32)%N) (l_times L);
  lw_reserved : l_magic_reserved L = true <-> l_reserved L <> [];
  lw_mixed : l_reserved L <> [] -> l_regions L = [] }.

(** ** The first slice *)

(** The [k]-th id is on the [k]-th qubit tile; the other tiles are as drawn. *)
Record initial (L : layout) (ids : list N) (s : slice) : Prop := {
  in_sized : sized (l_furthest L) s;
  in_core : forall k id, nth_error ids k = Some id -> exists c, nth_error (core_cells L) k = Some c
              /\ tile_at s c = Some (square (Some id) None);
  in_spare : forall k c, nth_error (core_cells L) k = Some c -> (length ids <= k)%nat -> tile_at s c = None;
  in_ystates : forall c, In c (l_ystates L) -> tile_at s c = Some (square None None);
  in_regions : forall sc, In sc (concat (l_regions L)) ->
                 tile_at s (sc_cell sc) = Some (mkDP distillation_patch (sc_b sc));
  in_reserved : forall c, In c (l_reserved L) -> tile_at s c = Some (mkDP distillation_patch connected4);
  in_dead : forall c, In c (l_dead L) -> tile_at s c = Some (mkDP dead_patch connected4);
  in_open : forall c, ~ In c (taken L) -> tile_at s c = None;
  in_magic : s_magic s = [];
  in_timers : s_timers s = l_times L;
  in_yavail : s_yavail s = u32 (N.of_nat (length (l_ystates L)));
  in_marks : s_crossing s = [] /\ s_rough s = [] /\ s_smooth s = [] }.

(** ** One step of time *)

(** Operations that are over, and leave nothing behind, when the slice ends. *)
Definition consumed (a : activity) : Prop := a = AMeasurement \/ a = AMultiPatch.

(** What an activity turns into when the slice ends. *)
Definition settled (a : activity) : activity :=
  match a with AUnitary => ANone | AEDPC => AReserved | _ => a end.

(** Activities that keep the joined sides of a tile joined. *)
Definition keeps_joins (a : activity) : Prop := a = ARotation \/ a = AReserved \/ a = AEDPC.

(** [p'] is the same patch as [p], one step later. *)
Definition same_patch_later (p p' : dpatch) : Prop :=
  p_type (dp p') = p_type (dp p) /\ p_id (dp p') = p_id (dp p)
  /\ p_label (dp p') = p_label (dp p) /\ p_op (dp p') = p_op (dp p)
  /\ p_act (dp p') = settled (p_act (dp p))
  /\ (forall d, btype (side (db p') d) = btype (side (db p) d))
  /\ (forall d, bactive (side (db p') d) = true <->
        keeps_joins (p_act (dp p)) /\ bactive (side (db p) d) = true).

(** Tile [c] is empty, or what is on it ends with this slice. *)
Definition vacated (s : slice) (c : cell) : Prop :=
  tile_at s c = None \/ exists p, tile_at s c = Some p /\ consumed (p_act (dp p)).

(** Between two slices the factories listed in [new] delivered one state each,
    [(i,c)] meaning factory [i] on tile [c] of its queue; the others that were due
    found their whole queue occupied. *)
Record deliveries (L : layout) (before after : slice) (due : nat -> Prop) (new : list (nat * cell)) : Prop := {
  dv_once : NoDup (map fst new);
  dv_cells : NoDup (map snd new);
  dv_new : forall i c, In (i, c) new -> due i
             /\ (exists q, nth_error (l_queues L) i = Some q /\ In c q)
             /\ vacated before c /\ tile_at after c = Some magic_tile;
  dv_rest : forall c, vacated before c -> ~ In c (map snd new) -> tile_at after c = None;
  dv_full : forall i q c, due i -> ~ In i (map fst new) -> nth_error (l_queues L) i = Some q ->
             In c q -> tile_at after c <> None;
  dv_list : forall c, In c (s_magic after) <-> In c (s_magic before) \/ In c (map snd new) }.

(** Every tile listed as holding a magic state holds an unbound, idle one. *)
Definition magic_listed (s : slice) : Prop :=
  forall c, In c (s_magic s) -> exists p, tile_at s c = Some p
    /\ p_type (dp p) = TPreparedState /\ p_id (dp p) = None /\ p_act (dp p) = ANone.

(** A history: [st n] is the slice at time [n], [mid n] the same slice once the
    operations of that time have been put on it.  Those operations leave the
    timers alone (proved for all instructions in ApplyProps). *)
Definition history (L : layout) (st mid : nat -> slice) : Prop :=
  s_timers (st 0%nat) = l_times L /\
  forall n, sized (l_furthest L) (mid n) /\ s_timers (mid n) = s_timers (st n)
            /\ advance_slice L (mid n) = Ok (st (S n)).

(** A tile where a state is being distilled. *)
Definition distilling (s : slice) (c : cell) : Prop :=
  exists p, tile_at s c = Some p /\ p_type (dp p) = TDistillation /\ p_act (dp p) = ADistillation.
