(** Outcomes of C++ calls: a normal result, a thrown exception, or undefined
    behaviour.  Model vocabulary; it models no single source line.  *)
From Coq Require Import List.
Import ListNotations.

(** Exception classes thrown by /repo code or by the std calls it makes
    (e.g. src/fields2cover/route_planning/custom_order.cpp:34,39,44;
    std::vector::at and std::unordered_map::at throw out_of_range; the conversions of
    nlohmann::json in src/fields2cover/utils/parser.cpp throw type_error). *)
Inductive exn : Set :=
| InvalidArgument
| LengthError
| OutOfRange
| TypeError.

(** Result of a call.  [UB] stands for undefined behaviour (out-of-range
    operator[], back() on an empty vector, invalid iterator, division by zero,
    signed overflow); [Hang] is returned by fuelled loops that ran out of fuel
    and stands for "does not terminate within the given number of steps".  For example
    src/fields2cover/types/Path.cpp:256-258 is UB on an empty path and
    src/fields2cover/route_planning/custom_order.cpp:25-48 throws. *)
Inductive outcome (A : Type) : Type :=
| Ok (a : A)
| Throw (e : exn)
| UB
| Hang.
Arguments Ok {A} a.
Arguments Throw {A} e.
Arguments UB {A}.
Arguments Hang {A}.

(** Sequencing of statements: the first abnormal outcome ends the call (e.g.
    src/fields2cover/route_planning/custom_order.cpp:16-23). *)
Definition bind {A B} (o : outcome A) (f : A -> outcome B) : outcome B :=
  match o with
  | Ok a => f a
  | Throw e => Throw e
  | UB => UB
  | Hang => Hang
  end.

Notation "'do' x <- o ; k" := (bind o (fun x => k))
  (at level 200, x pattern, o at level 100, k at level 200, right associativity).

(** A range-for loop whose body may throw (e.g. src/fields2cover/types/Cells.cpp:188-194). *)
Fixpoint foldM {A S} (f : S -> A -> outcome S) (l : list A) (s : S) : outcome S :=
  match l with
  | [] => Ok s
  | a :: l => do s' <- f s a; foldM f l s'
  end.

(** Element-wise translation of a container by a call that may throw (e.g.
    src/fields2cover/types/Swaths.cpp:150-154). *)
Fixpoint mapM {A B} (f : A -> outcome B) (l : list A) : outcome (list B) :=
  match l with
  | [] => Ok []
  | a :: l => do b <- f a; do r <- mapM f l; Ok (b :: r)
  end.

(** operator[] on a std::vector: out of range is undefined behaviour (e.g.
    src/fields2cover/types/Graph.cpp:130-146). *)
Definition vec_index {A} (l : list A) (i : nat) : outcome A :=
  match nth_error l i with Some a => Ok a | None => UB end.

(** std::vector::at (e.g. src/fields2cover/types/SwathsByCells.cpp:74-83). *)
Definition vec_at {A} (l : list A) (i : nat) : outcome A :=
  match nth_error l i with Some a => Ok a | None => Throw OutOfRange end.

(** std::vector::back(): undefined on an empty vector (e.g.
    src/fields2cover/types/Path.cpp:256-258). *)
Definition vec_back {A} (l : list A) : outcome A :=
  match rev l with a :: _ => Ok a | [] => UB end.

(** Assignment through operator[] (e.g. src/fields2cover/types/Graph.cpp:133-134). *)
Definition vec_set {A} (l : list A) (i : nat) (a : A) : outcome (list A) :=
  match nth_error l i with
  | Some _ => Ok (firstn i l ++ a :: skipn (S i) l)
  | None => UB
  end.
