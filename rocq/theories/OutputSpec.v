(** JSON texts (RFC 8259) and how to look at one, independent of how they are written. *)
From Verif Require Import Base TextModel PatchesModel SliceModel OutputModel.
Open Scope nat_scope.

Definition white (c : ascii) : Prop := In (N_of_ascii c) [32; 9; 10; 13]%N.
Definition blanks (t : text) : Prop := Forall white t.

(** What is between the quotes of a string *)
Definition hex (c : ascii) : Prop := let n := N_of_ascii c in (48 <= n <= 57 \/ 65 <= n <= 70 \/ 97 <= n <= 102)%N.
Inductive body : text -> Prop :=
| bd_nil : body []
| bd_char c r : (32 <= N_of_ascii c)%N -> N_of_ascii c <> 34%N -> N_of_ascii c <> 92%N -> body r -> body (c :: r)
| bd_escape c r : In c (list_ascii_of_string "\/bfnrt" ++ [ascii_of_N 34]) -> body r -> body ("\"%char :: c :: r)
| bd_code a b c d r : hex a -> hex b -> hex c -> hex d -> body r -> body ("\"%char :: "u"%char :: a :: b :: c :: d :: r).

(** Numbers: an over-approximation of the grammar suffices, none are written *)
Definition number (t : text) : Prop :=
  t <> [] /\ Forall (fun c => In c (list_ascii_of_string "0123456789+-.eE")) t.

(** [denotes v t]: the text [t], without blanks around it, is JSON for [v].  Strings and numbers are kept as written. *)
Inductive denotes : json -> text -> Prop :=
| dn_null : denotes JNull (lit "null")
| dn_true : denotes (JBool true) (lit "true")
| dn_false : denotes (JBool false) (lit "false")
| dn_num t : number t -> denotes (JNum t) t
| dn_str t : body t -> denotes (JStr t) (ascii_of_N 34 :: t ++ [ascii_of_N 34])
| dn_arr0 b : blanks b -> denotes (JArr []) ("["%char :: b ++ ["]"%char])
| dn_arr l t : items l t -> denotes (JArr l) ("["%char :: t ++ ["]"%char])
| dn_obj0 b : blanks b -> denotes (JObj []) ("{"%char :: b ++ ["}"%char])
| dn_obj l t : members l t -> denotes (JObj l) ("{"%char :: t ++ ["}"%char])
(** one or more elements, with blanks around each *)
with items : list json -> text -> Prop :=
| it_one v b t b' : blanks b -> denotes v t -> blanks b' -> items [v] (b ++ t ++ b')
| it_more v b t b' l t' : blanks b -> denotes v t -> blanks b' -> items l t' -> items (v :: l) (b ++ t ++ b' ++ ","%char :: t')
with members : list (text * json) -> text -> Prop :=
| mb_one k v b1 b2 b3 t b4 : blanks b1 -> blanks b2 -> blanks b3 -> blanks b4 -> body k -> denotes v t ->
    members [(k, v)] (b1 ++ (ascii_of_N 34 :: k ++ [ascii_of_N 34]) ++ b2 ++ ":"%char :: b3 ++ t ++ b4)
| mb_more k v b1 b2 b3 t b4 l t' : blanks b1 -> blanks b2 -> blanks b3 -> blanks b4 -> body k -> denotes v t -> members l t' ->
    members ((k, v) :: l) (b1 ++ (ascii_of_N 34 :: k ++ [ascii_of_N 34]) ++ b2 ++ ":"%char :: b3 ++ t ++ b4 ++ ","%char :: t').

(** A JSON text *)
Definition json_text (v : json) (t : text) : Prop := exists b m b', t = b ++ m ++ b' /\ blanks b /\ denotes v m /\ blanks b'.

(** Looking at a value *)
Fixpoint lookup (k : text) (l : list (text * json)) : option json :=
  match l with [] => None | (k', v) :: r => if text_eqb k k' then Some v else lookup k r end.
Definition field (k : string) (j : json) : option json := match j with JObj l => lookup (lit k) l | _ => None end.
Definition element (i : Z) (j : json) : option json :=
  match j with JArr l => if (i <? 0)%Z then None else nth_error l (Z.to_nat i) | _ => None end.
(** The element for tile [c] of a grid *)
Definition grid_at (j : json) (c : cell) : option json :=
  match element (row c) j with Some r => element (col c) r | None => None end.
(** An array of [far.row + 1] arrays of [far.col + 1] values *)
Definition is_grid (far : cell) (j : json) : Prop :=
  exists rows, j = JArr rows /\ Z.of_nat (length rows) = (row far + 1)%Z
    /\ Forall (fun r => exists l, r = JArr l /\ Z.of_nat (length l) = (col far + 1)%Z) rows.

(** ** What can be seen of a patch *)

(** An edge is nothing, a join, dashed or solid; the last two may be stitched (active). *)
Inductive look := LNothing | LJoin | LDashed (stitched : bool) | LSolid (stitched : bool).
Definition look_of (b : boundary) : look :=
  match btype b, bactive b with
  | BConnected, true => LJoin
  | BRough, a => LDashed a
  | BSmooth, a => LSolid a
  | BLabel1, true => LSolid true
  | BLabel2, true => LDashed true
  | _, _ => LNothing
  end.
(** Qubits, parts of factories (magic states included), and everything else *)
Inductive kind := KQubit | KFactory | KOther.
Definition kind_of (t : patch_type) : kind := match t with TQubit => KQubit | TDistillation | TPreparedState => KFactory | TRouting | TDead => KOther end.
(** Measurements and unitaries are shown, other activities are not. *)
Definition acting (a : activity) : option bool := match a with AMeasurement => Some true | AUnitary => Some false | _ => None end.

Definition look_word (l : look) : text :=
  match l with
  | LNothing => lit "None" | LJoin => lit "AncillaJoin"
  | LDashed a => if a then lit "DashedStiched" else lit "Dashed"
  | LSolid a => if a then lit "SolidStiched" else lit "Solid"
  end.
Definition kind_word (k : kind) : text :=
  match k with KQubit => lit "Qubit" | KFactory => lit "DistillationQubit" | KOther => lit "Ancilla" end.
Definition acting_word (a : option bool) : json :=
  match a with Some true => JStr (lit "Measurement") | Some false => JStr (lit "Unitary") | None => JNull end.
(** The value shows everything but the text. *)
Definition pictures (p : dpatch) (v : json) : Prop :=
  (exists e, field "edges" v = Some e
     /\ field "Top" e = Some (JStr (look_word (look_of (b_top (db p))))) /\ field "Bottom" e = Some (JStr (look_word (look_of (b_bottom (db p)))))
     /\ field "Left" e = Some (JStr (look_word (look_of (b_left (db p))))) /\ field "Right" e = Some (JStr (look_word (look_of (b_right (db p))))))
  /\ field "patch_type" v = Some (JStr (kind_word (kind_of (p_type (dp p)))))
  /\ field "operation_id" v = option_map (fun n => JStr (print_N n)) (p_op (dp p))
  /\ (exists a, field "activity" v = Some a /\ field "activity_type" a = Some (acting_word (acting (p_act (dp p))))).
(** Patches without an id that wait for one: qubits, and tiles of factories which are not at work *)
Definition unbound (p : patch) : Prop := p_id p = None /\ (p_type p = TQubit \/ p_type p = TDistillation /\ p_act p = ANone).
Definition texts (p : patch) (t : text) : Prop :=
  (forall id, p_id p = Some id -> t = lit "Id: " ++ print_N id)
  /\ (unbound p -> t = lit "Not bound") /\ (p_id p = None -> ~ unbound p -> t = []).
(** Two tiles that look the same but for their texts *)
Definition alike (t u : tile) : Prop :=
  match t, u with
  | None, None => True
  | Some p, Some q =>
      look_of (b_top (db p)) = look_of (b_top (db q)) /\ look_of (b_bottom (db p)) = look_of (b_bottom (db q))
      /\ look_of (b_left (db p)) = look_of (b_left (db q)) /\ look_of (b_right (db p)) = look_of (b_right (db q))
      /\ kind_of (p_type (dp p)) = kind_of (p_type (dp q)) /\ p_op (dp p) = p_op (dp q) /\ acting (p_act (dp p)) = acting (p_act (dp q))
  | _, _ => False
  end.
Definition same_text (t u : tile) : Prop :=
  match t, u with Some p, Some q => p_id (dp p) = p_id (dp q) /\ (unbound (dp p) <-> unbound (dp q)) | _, _ => True end.

(** ** Volumes *)
Inductive class := Unused | Factory | Lost | Active.
(** Magic states count as parts of a factory where factories are not drawn. *)
Definition class_of (reserved : bool) (t : tile) : class :=
  match t with
  | None => Unused
  | Some p => match p_type (dp p) with
              | TDistillation => Factory | TPreparedState => if reserved then Factory else Active
              | TDead => Lost | TQubit | TRouting => Active end
  end.
Definition class_eqb (a b : class) : bool :=
  match a, b with Unused, Unused | Factory, Factory | Lost, Lost | Active, Active => true | _, _ => false end.
(** The number of tiles of a class on the slices *)
Definition tiles_of (reserved : bool) (k : class) (l : list slice) : N :=
  N.of_nat (length (filter (fun t => class_eqb (class_of reserved t) k) (flat_map (fun s => map snd (tiles s)) l))).
