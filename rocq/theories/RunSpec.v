(** What it means to carry out a program one instruction after the other,
    independently of the queues the loops keep. *)
From Verif Require Import Base PatchesModel LayoutModel InstrModel SliceModel ApplyModel RunModel.

Section Order.
Variable e : env.

(** [underway w0 i0 es k w i]: [i0] was begun in [w0]; since then [es] was seen and [k] attempts were
    refused; what is to be done next is [i], in [w]: [i0] itself, with a smaller
    waiting limit for each refusal, or the last follow-up. *)
Inductive underway (w0 : world) (i0 : instr) : list event -> nat -> world -> instr -> Prop :=
| uw_begin : underway w0 i0 [] 0 w0 i0
| uw_more es k w i a j s : underway w0 i0 es k w i -> try_apply e w i = Ok a ->
    a_error a = false -> a_follow a = [j] -> advance_slice (e_layout e) (w_slice (a_world a)) = Ok s ->
    underway w0 i0 (es ++ [Applied (tried i a); Emitted (w_slice (a_world a))]) k (with_slice (a_world a) s) j
| uw_again es k w i a s : underway w0 i0 es k w i -> try_apply e w i = Ok a ->
    a_error a = true -> a_follow a = [] -> wait i <> 0%N ->
    advance_slice (e_layout e) (w_slice (a_world a)) = Ok s ->
    underway w0 i0 (es ++ [Emitted (w_slice (a_world a))]) (S k) (with_slice (a_world a) s)
             (mkI (a_op a) (wait i - 1) (clients i)).

(** [i0] was carried out completely. *)
Definition carried_out (w0 : world) (i0 : instr) (es : list event) (k : nat) (w' : world) : Prop :=
  exists es' w i a, underway w0 i0 es' k w i /\ try_apply e w i = Ok a /\ a_error a = false /\ a_follow a = []
    /\ es = es' ++ [Applied (tried i a)] /\ w' = a_world a.

(** The instructions were carried out in order, each once. *)
Inductive in_order (w0 : world) : list instr -> list event -> nat -> world -> Prop :=
| io_nil : in_order w0 [] [] 0 w0
| io_next p es k w i es' k' w' : in_order w0 p es k w -> carried_out w i es' k' w' ->
    in_order w0 (p ++ [i]) (es ++ es') (k + k') w'.

(** The next attempt does not take place: it or the advance after it ends in an
    exception (or worse), or the instruction is refused when its limit is used
    up.  The events are those seen after [underway]. *)
Inductive breaks_off (w : world) (i : instr) : list event -> ending -> Prop :=
| bo_used_up a : try_apply e w i = Ok a -> a_error a = true -> a_follow a = [] -> wait i = 0%N ->
    breaks_off w i [Emitted (w_slice (a_world a))] (Failed RuntimeError)
| bo_attempt r : (match try_apply e w i with Ok _ => False | Throw x => r = Failed x | UB u => r = Undefined u | Fuel => r = Unended end) ->
    breaks_off w i [] r
| bo_advance a es r : try_apply e w i = Ok a ->
    es = (if a_error a then [] else [Applied (tried i a)]) ++ [Emitted (w_slice (a_world a))] ->
    (a_error a = true \/ a_follow a <> []) ->
    (match advance_slice (e_layout e) (w_slice (a_world a)) with
     | Ok _ => False | Throw x => r = Failed x | UB u => r = Undefined u | Fuel => r = Unended end) ->
    breaks_off w i es r.
End Order.
