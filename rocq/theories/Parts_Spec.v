(** Specification vocabulary for the parts of collections: what a program would do if
    every variable held its own value, and which statements make two variables share an
    object.  *)
From Coq Require Import List Arith Bool.
From Verif Require Import Outcome Alias_Spec Parts_Model.
Import ListNotations.
Local Open Scope nat_scope.

Section Spec.
  Context {A : Type}.
  Variable isEmpty : A -> bool.
  Variable dflt : A.
  Variable put : A -> A.
  Variable wkt : A -> A.

  (** Variables that hold values: a collection is a list of parts. *)
  Record vstate := mkV { v_coll : list (list A); v_part : list A }.

  (** A list with another x-th element. *)
  Definition replaced {B} (l : list B) (x : nat) (b : B) : list B := firstn x l ++ b :: skipn (S x) l.

  (** A value for a declared variable. *)
  Definition vcoll (v : vstate) (x : nat) (l : list A) : outcome vstate :=
    if x <? length (v_coll v) then Ok (mkV (replaced (v_coll v) x l) (v_part v)) else Throw OutOfRange.
  Definition vpart (v : vstate) (p : nat) (a : A) : outcome vstate :=
    if p <? length (v_part v) then Ok (mkV (v_coll v) (replaced (v_part v) p a)) else Throw OutOfRange.

  (** The number of parts, where a collection of empty parts has none. *)
  Definition count (l : list A) : nat := if forallb isEmpty l then 0 else length l.

  (** The list after its i-th part is set: the other parts stay, and empty parts fill the gap. *)
  Definition with_part (l : list A) (i : nat) (a : A) : list A :=
    if i <? count l then map put (replaced l i a)
    else l ++ repeat (put dflt) (i - count l) ++ [put a].

  (** Every statement works on values. *)
  Definition vstep (v : vstate) (o : @op A) : outcome vstate :=
    match o with
    | NewColl x => vcoll v x []
    | CopyColl x y => do l <- vec_at (v_coll v) x; vcoll v y l
    | CloneColl x y => do l <- vec_at (v_coll v) x; vcoll v y (map wkt l)
    | Import x l => vcoll v x l
    | AddPart x p => do l <- vec_at (v_coll v) x; do a <- vec_at (v_part v) p; vcoll v x (l ++ [put a])
    | SetPart x i p => do l <- vec_at (v_coll v) x; do a <- vec_at (v_part v) p; vcoll v x (with_part l i a)
    | GetPart x i p | RefPart x i p =>
        do l <- vec_at (v_coll v) x;
        do _ <- vec_at (v_part v) p;
        do a <- vec_at (firstn (count l) l) i;
        vpart v p a
    | WherePart x f p =>
        do l <- vec_at (v_coll v) x;
        vpart v p (match find f (firstn (count l) l) with Some a => a | None => dflt end)
    | NewPart p a => vpart v p a
    | CopyPart p q => do a <- vec_at (v_part v) p; vpart v q a
    | ClonePart p q => do a <- vec_at (v_part v) p; vpart v q (wkt a)
    | Change p f => do a <- vec_at (v_part v) p; vpart v p (f a)
    end.
  Definition vrun (ops : list op) (v : vstate) : outcome vstate := foldM vstep ops v.

  (** Variables that start empty. *)
  Definition v_init (nc np : nat) : vstate := mkV (repeat [] nc) (repeat dflt np).

  (** What the variables show. *)
  Definition shows (st : @state A) (v : vstate) : Prop :=
    length (st_coll st) = length (v_coll v) /\
    length (st_part st) = length (v_part v) /\
    (forall x l, nth_error (v_coll v) x = Some l -> coll_value st x = Ok l) /\
    (forall p a, nth_error (v_part v) p = Some a -> part_value st p = Ok a).

  (** Statements that take a part out of a collection without copying it. *)
  Definition borrows (o : @op A) : bool :=
    match o with RefPart _ _ _ | WherePart _ _ _ => true | _ => false end.
  (** Statements that make two variables share an object. *)
  Definition shares (o : @op A) : bool :=
    match o with CopyColl _ _ | CopyPart _ _ | RefPart _ _ _ | WherePart _ _ _ => true | _ => false end.
  (** Statements that give a part variable another object. *)
  Definition sets_part (p : nat) (o : @op A) : bool :=
    match o with
    | GetPart _ _ q | RefPart _ _ q | WherePart _ _ q | NewPart q _ | CopyPart _ q | ClonePart _ q => q =? p
    | _ => false
    end.
  (** Statements that may give a collection variable another object. *)
  Definition sets_coll (x : nat) (o : @op A) : bool :=
    match o with NewColl y | CopyColl _ y | CloneColl _ y | SetPart y _ _ => y =? x | _ => false end.
  (** Statements that make a copy or a change of a part variable. *)
  Definition uses_part (p : nat) (o : @op A) : bool :=
    match o with CopyPart q _ | Change q _ => q =? p | _ => false end.
  (** Reading text into a collection. *)
  Definition imports (o : @op A) : bool := match o with Import _ _ => true | _ => false end.
End Spec.
