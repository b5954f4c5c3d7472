(** Common vocabulary of the model: text, outcomes, small list helpers. *)
From Coq Require Export Ascii String.
From Coq Require Export List Arith NArith ZArith Bool Lia.
From Coq Require Export ZifyBool ZifyNat ZifyN.
Export ListNotations.
Global Open Scope list_scope.

(** C++ [std::string] / [std::string_view] contents. *)
Definition text := list ascii.

(** Literal text. *)
Definition lit (s : string) : text := list_ascii_of_string s.

(** Kinds of C++ exceptions thrown by the code.  Messages are not modelled. *)
Inductive exn :=
| ParseException      (* lsqecc::InstructionParseException / GateParseException *)
| RuntimeError        (* std::runtime_error *)
| LogicError          (* std::logic_error *)
| OutOfRange          (* std::out_of_range, from .at() *)
| BadOptional         (* std::bad_optional_access, from .value() *)
| InvalidArgument     (* std::invalid_argument *)
| PlainException      (* a std::exception sliced from a derived class by lstk::get_or_throw *)
| NotImplemented      (* LSTK_NOT_IMPLEMENTED *)
| Unreachable.        (* LSTK_UNREACHABLE: throws std::logic_error, lstk.hpp *)

(** Kinds of undefined behaviour the model distinguishes. *)
Inductive ubkind :=
| UBIndex             (* unchecked operator[] out of range *)
| UBDeref             (* dereferencing an end iterator / empty optional / null *)
| UBPop               (* front()/pop() on an empty queue *)
| UBRead              (* reading past the end of a character range *)
| UBDangling          (* use of a dangling reference or iterator *)
| UBOverflow.         (* signed overflow *)

(** Result of running a piece of C++: a value, an exception, undefined
    behaviour, or the model's own "ran out of fuel" marker. *)
Inductive outcome (A : Type) :=
| Ok (a : A)
| Throw (e : exn)
| UB (u : ubkind)
| Fuel.
Arguments Ok {A} a.
Arguments Throw {A} e.
Arguments UB {A} u.
Arguments Fuel {A}.

Definition bind {A B} (x : outcome A) (f : A -> outcome B) : outcome B :=
  match x with
  | Ok a => f a
  | Throw e => Throw e
  | UB u => UB u
  | Fuel => Fuel
  end.
Notation "'do' x <- m ;; k" := (bind m (fun x => k))
  (at level 200, x pattern, m at level 100, k at level 200, right associativity).
Notation "'do_' m ;; k" := (bind m (fun _ => k))
  (at level 200, m at level 100, k at level 200, right associativity).

Definition is_ub {A} (x : outcome A) : bool :=
  match x with UB _ => true | _ => false end.

(** [vec.at(i)] *)
Definition at_ {A} (l : list A) (i : nat) : outcome A :=
  match nth_error l i with Some a => Ok a | None => Throw OutOfRange end.

(** [vec[i]] : unchecked *)
Definition idx {A} (l : list A) (i : nat) : outcome A :=
  match nth_error l i with Some a => Ok a | None => UB UBIndex end.

(** [opt.value()] *)
Definition value_ {A} (o : option A) : outcome A :=
  match o with Some a => Ok a | None => Throw BadOptional end.

(** [*opt] : unchecked *)
Definition deref {A} (o : option A) : outcome A :=
  match o with Some a => Ok a | None => UB UBDeref end.

(** Equality of texts, [operator==] on string_view. *)
Fixpoint text_eqb (a b : text) : bool :=
  match a, b with
  | [], [] => true
  | x :: a', y :: b' => Ascii.eqb x y && text_eqb a' b'
  | _, _ => false
  end.

(** Monadic iteration helpers. *)
Fixpoint mapM {A B} (f : A -> outcome B) (l : list A) : outcome (list B) :=
  match l with
  | [] => Ok []
  | x :: r => do y <- f x ;; do ys <- mapM f r ;; Ok (y :: ys)
  end.

Fixpoint foldM {A S} (f : S -> A -> outcome S) (l : list A) (s : S) : outcome S :=
  match l with
  | [] => Ok s
  | x :: r => do s' <- f s x ;; foldM f r s'
  end.

(** tsl::ordered_set<N>: insertion ordered, no duplicates. *)
Definition memN (x : N) (l : list N) : bool := existsb (N.eqb x) l.
Definition oset_insert (x : N) (l : list N) : list N :=
  if memN x l then l else l ++ [x].
