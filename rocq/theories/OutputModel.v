(** Model of src/patches/slices_to_json.cpp (dense slices), src/patches/slice_stats.cpp and of the
    part of src/pipelines/slicer.cpp that writes slices (590-632, 686-687).

    nlohmann::json is modelled as far as it is used: the values, [operator[]] with an index or a key,
    and [dump(3)].  Objects are std::maps, hence sorted by key.  Strings are written without
    escapes: what is dumped here has no quotes, backslashes or control characters
    (OutputProofs.slice_json_plain).

    Not modelled: SparseSlice output, the percentages of the statistics (doubles), output errors. *)
From Verif Require Import Base TextModel PatchesModel LayoutModel SliceModel RunModel.
Open Scope nat_scope.

(** nlohmann::json values; numbers are kept as written *)
Inductive json :=
| JNull | JBool (b : bool) | JNum (t : text) | JStr (t : text)
| JArr (l : list json) | JObj (l : list (text * json)).

(** std::less<std::string> *)
Fixpoint text_ltb (a b : text) : bool :=
  match a, b with
  | _, [] => false
  | [], _ :: _ => true
  | x :: a', y :: b' => if Ascii.eqb x y then text_ltb a' b' else N.ltb (N_of_ascii x) (N_of_ascii y)
  end.
(** [map[k] = v] *)
Fixpoint fields_put (k : text) (v : json) (l : list (text * json)) : list (text * json) :=
  match l with
  | [] => [(k, v)]
  | (k', v') :: r => if text_eqb k k' then (k, v) :: r else if text_ltb k k' then (k, v) :: l else (k', v') :: fields_put k v r
  end.
(** [j[k] = v]: null becomes an object; other values throw type_error, a std::exception *)
Definition put_field (k : text) (v : json) (j : json) : outcome json :=
  match j with
  | JNull => Ok (JObj [(k, v)])
  | JObj l => Ok (JObj (fields_put k v l))
  | _ => Throw PlainException
  end.
(** [f(j[i])]: null becomes an array, which is filled up with nulls; other values throw.  A negative index becomes huge and
    the filling up throws a std::length_error, a std::logic_error. *)
Definition at_index (i : Z) (f : json -> outcome json) (j : json) : outcome json :=
  if (i <? 0)%Z then Throw LogicError else
  let n := Z.to_nat i in
  let go l :=
    let l := l ++ repeat JNull (S n - length l) in
    do x <- idx l n ;; do y <- f x ;; Ok (JArr (set_row l n y)) in
  match j with JNull => go [] | JArr l => go l | _ => Throw PlainException end.
(** [f(j[c.row][c.col])] *)
Definition at_cell (c : cell) (f : json -> outcome json) (j : json) : outcome json :=
  at_index (row c) (at_index (col c) f) j.

(** ** slices_to_json.cpp *)

(** 8-23 *)
Definition blank_grid (far : cell) : json :=
  JArr (repeat (JArr (repeat JNull (Z.to_nat (col far + 1)))) (Z.to_nat (row far + 1))).

(** 26-35.  [front()] of an empty region is undefined; the timers are not checked (dense_slice.cpp:270-273). *)
Definition annotate_region (s : slice) (jk : json * nat) (region : list scell) : outcome (json * nat) :=
  let (j, k) := jk in
  do front <- (match region with [] => UB UBDeref | x :: _ => Ok x end) ;;
  do t <- idx (s_timers s) k ;;
  do j <- at_cell (sc_cell front) (put_field (lit "text") (JStr (lit "Time to next magic state:" ++ print_N t))) j ;;
  Ok (j, S k).
Definition annotate (L : layout) (s : slice) (j : json) : outcome json :=
  do (j, _) <- foldM (annotate_region s) (l_regions L) (j, 0) ;; Ok j.

(** 40-52 *)
Definition edge_name (b : boundary) : text :=
  match btype b with
  | BNone => lit "None"
  | BConnected => if bactive b then lit "AncillaJoin" else lit "None"
  | BRough => if bactive b then lit "DashedStiched" else lit "Dashed"
  | BSmooth => if bactive b then lit "SolidStiched" else lit "Solid"
  | BLabel1 => if bactive b then lit "SolidStiched" else lit "None"
  | BLabel2 => if bactive b then lit "DashedStiched" else lit "None"
  end.
(** 38-60; the keys in the order of std::map *)
Definition edges_json (b : bounds) : json :=
  JObj [(lit "edges", JObj [(lit "Bottom", JStr (edge_name (b_bottom b))); (lit "Left", JStr (edge_name (b_left b)));
                            (lit "Right", JStr (edge_name (b_right b))); (lit "Top", JStr (edge_name (b_top b)))])].
(** 69-79 *)
Definition type_name (t : patch_type) : text :=
  match t with
  | TDistillation | TPreparedState => lit "DistillationQubit"
  | TQubit => lit "Qubit"
  | TRouting | TDead => lit "Ancilla"
  end.
(** 81-100 *)
Definition activity_json (a : activity) : json :=
  JObj [(lit "activity_type", match a with AMeasurement => JStr (lit "Measurement") | AUnitary => JStr (lit "Unitary") | _ => JNull end)].
(** 102-107 *)
Definition patch_text (p : patch) : text :=
  match p_id p with
  | Some id => lit "Id: " ++ print_N id
  | None =>
      if (ptype_eqb (p_type p) TDistillation && act_eqb (p_act p) ANone || ptype_eqb (p_type p) TQubit)%bool
      then lit "Not bound" else []
  end.
(** 63-109 *)
Definition patch_json (p : dpatch) : outcome json :=
  let j := edges_json (db p) in
  do j <- (match p_op (dp p) with Some n => put_field (lit "operation_id") (JStr (print_N n)) j | None => Ok j end) ;;
  do j <- put_field (lit "patch_type") (JStr (type_name (p_type (dp p)))) j ;;
  do j <- put_field (lit "activity") (activity_json (p_act (dp p))) j ;;
  put_field (lit "text") (JStr (patch_text (dp p))) j.

(** 112-122 *)
Definition draw_tile (j : json) (ct : cell * tile) : outcome json :=
  match snd ct with
  | Some p => do x <- patch_json p ;; at_cell (fst ct) (fun _ => Ok x) j
  | None => Ok j
  end.
Definition slice_json (L : layout) (s : slice) : outcome json :=
  do j <- foldM draw_tile (tiles s) (blank_grid (l_furthest L)) ;;
  annotate L s j.

(** ** [dump(3)] *)

Definition newline_char : ascii := ascii_of_N 10.
Definition quote_char : ascii := ascii_of_N 34.
Definition quoted (t : text) : text := quote_char :: t ++ [quote_char].
Definition step_width : nat := 3.
(** Lines ended by commas, except the last *)
Fixpoint lines (l : list text) : text :=
  match l with [] => [] | [x] => x | x :: r => x ++ [","%char; newline_char] ++ lines r end.
(** [cur] is the current indentation. *)
Fixpoint dump (cur : nat) (j : json) : text :=
  let inner := repeat " "%char (cur + step_width) in
  let close c := newline_char :: repeat " "%char cur ++ [c] in
  match j with
  | JNull => lit "null"
  | JBool b => if b then lit "true" else lit "false"
  | JNum t => t
  | JStr t => quoted t
  | JArr [] => lit "[]"
  | JArr l => lit "[" ++ [newline_char] ++ lines (map (fun x => inner ++ dump (cur + step_width) x) l) ++ close "]"%char
  | JObj [] => lit "{}"
  | JObj l =>
      lit "{" ++ [newline_char]
      ++ lines (map (fun kx => inner ++ quoted (fst kx) ++ lit ": " ++ dump (cur + step_width) (snd kx)) l) ++ close "}"%char
  end.

(** ** slicer.cpp: what a run writes *)

(** 595-603: the visitor, for the slices in the order of the visits.  An exception thrown by it ends the run. *)
Fixpoint written (L : layout) (first : bool) (l : list slice) : outcome text :=
  match l with
  | [] => Ok []
  | s :: r =>
      do j <- slice_json L s ;;
      do rest <- written L false r ;;
      Ok ((if first then ["["%char; newline_char] else [","%char; newline_char]) ++ dump 0 j ++ rest)
  end.

(** What is on the stream when run_slicer_program returns or is left by an exception.  [graceful]: dense_patch_computation.cpp:1707-1719,
    which writes the message to std::cout; [shared]: the slices go there too (no -o, and called from [main]).  [what] is the text of the exception. *)
Definition output (L : layout) (graceful shared : bool) (what : text) (t : tally) (r : ending) : outcome text :=
  do body <- written L true (emitted (t_events t)) ;;
  let close := ["]"%char; newline_char] in
  match r with
  | Finished => Ok (body ++ close)
  | Failed _ =>
      if graceful
      then Ok (body ++ (if shared then lit "Encountered exception: " ++ what ++ [newline_char] ++ lit "Halting slicing" ++ [newline_char] else []) ++ close)
      else Ok body
  | Undefined u => UB u
  | Unended => Fuel
  end.

(** ** slice_stats.cpp *)

Record volumes := mkV { vol : N; vol_unused : N; vol_dist : N; vol_dead : N }.
Definition volumes0 : volumes := mkV 0 0 0 0.
(** 27-34; size_t does not wrap *)
Definition add_volumes (a b : volumes) : volumes :=
  mkV (vol a + vol b) (vol_unused a + vol_unused b) (vol_dist a + vol_dist b) (vol_dead a + vol_dead b).
(** 45-55 *)
Definition count_tile (reserved : bool) (v : volumes) (t : tile) : volumes :=
  match t with
  | None => mkV (vol v) (vol_unused v + 1) (vol_dist v) (vol_dead v)
  | Some p =>
      if ptype_eqb (p_type (dp p)) TDistillation then mkV (vol v) (vol_unused v) (vol_dist v + 1) (vol_dead v)
      else if (reserved && ptype_eqb (p_type (dp p)) TPreparedState)%bool then mkV (vol v) (vol_unused v) (vol_dist v + 1) (vol_dead v)
      else if ptype_eqb (p_type (dp p)) TDead then mkV (vol v) (vol_unused v) (vol_dist v) (vol_dead v + 1)
      else v
  end.
(** 37-59.  The product of two ints overflows above 2^31 - 1. *)
Definition volume_counts (L : layout) (s : slice) : outcome volumes :=
  let far := l_furthest L in
  let v := ((row far + 1) * (col far + 1))%Z in
  if (2 ^ 31 <=? v)%Z then UB UBOverflow else
  Ok (fold_left (count_tile (l_magic_reserved L)) (concat (s_cells s)) (mkV (Z.to_N v) 0 0 0)).
(** slicer.cpp:624-632 *)
Fixpoint total_volumes (L : layout) (l : list slice) (v : volumes) : outcome volumes :=
  match l with [] => Ok v | s :: r => do c <- volume_counts L s ;; total_volumes L r (add_volumes v c) end.
(** slice_stats.cpp:20, unsigned subtraction *)
Definition other_volume (v : volumes) : N :=
  Z.to_N ((Z.of_N (vol v) - Z.of_N (vol_unused v) - Z.of_N (vol_dist v) - Z.of_N (vol_dead v)) mod 2 ^ 64)%Z.
