(** Specification vocabulary for the sharing of lines: what a program would do
    if every variable held its own points.  *)
From Coq Require Import List Arith ZArith Bool.
From Verif Require Import Outcome Swath_Model Alias_Model.
Import ListNotations.

(** What two outcomes have in common. *)
Inductive orel {A B : Type} (R : A -> B -> Prop) : outcome A -> outcome B -> Prop :=
| orel_ok a b : R a b -> orel R (Ok a) (Ok b)
| orel_throw e : orel R (Throw e) (Throw e)
| orel_ub : orel R UB UB
| orel_hang : orel R Hang Hang.

Section Spec.
  Context {P W : Type}.
  Variable w_nonpos : W -> bool.
  Variable w_zero : W.
  Variable p_default : P.
  Variable p_lt : P -> P -> bool.
  Variable wkt : P -> P.
  Variable sort_perm : list Z -> list nat.
  Variable move_points : P -> list P -> outcome (list P).

  (** Variables that hold values: points, not addresses. *)
  Record vstate := mkV {
    v_line : nat -> option (list P);
    v_cont : nat -> list (swath P W)
  }.

  (** A copy is a new value, whatever it is copied from. *)
  Definition vstep (v : vstate) (o : @op P W) : outcome vstate :=
    let ls := v_line v in
    let cs := v_cont v in
    match o with
    | NewLine x l => Ok (mkV (set ls x (Some l)) cs)
    | CopyLine x y => do l <- get_line ls x; Ok (mkV (set ls y (Some l)) cs)
    | CloneLine x y => do l <- get_line ls x; Ok (mkV (set ls y (Some (map wkt l))) cs)
    | ReversePoints x => do l <- get_line ls x; Ok (mkV (set ls x (Some (rev l))) cs)
    | GetPath c i x => do s <- vec_at (cs c) i; Ok (mkV (set ls x (Some (sw_path s))) cs)
    | SetPath c i x =>
        do s <- vec_at (cs c) i;
        do l <- get_line ls x;
        do r <- vec_set (cs c) i (swath_setPath s l);
        Ok (mkV ls (set cs c r))
    | Emplace c x w id ty =>
        do l <- get_line ls x;
        do s <- swath_new w_nonpos w_zero l w id ty;
        Ok (mkV ls (set cs c (cs c ++ [s])))
    | EmplaceNew c l w id ty =>
        do s <- swath_new w_nonpos w_zero l w id ty;
        Ok (mkV ls (set cs c (cs c ++ [s])))
    | NewSwaths c => Ok (mkV ls (set cs c []))
    | PushBack c d i => do s <- vec_at (cs d) i; Ok (mkV ls (set cs c (cs c ++ [s])))
    | Append c d =>
        if (c =? d) && negb (length (cs d) =? 0) then UB
        else Ok (mkV ls (set cs c (cs c ++ cs d)))
    | CopySwaths c d => Ok (mkV ls (set cs d (cs c)))
    | CloneSwaths c d =>
        do r <- swaths_clone w_nonpos w_zero wkt (cs c); Ok (mkV ls (set cs d r))
    | ReverseSwath c i =>
        do s <- vec_at (cs c) i;
        do r <- vec_set (cs c) i (swath_reverse s);
        Ok (mkV ls (set cs c r))
    | ReverseOrder c => Ok (mkV ls (set cs c (rev (cs c))))
    | ReverseDirOdd c => Ok (mkV ls (set cs c (swaths_reverseDirOddSwaths (cs c))))
    | Sort c =>
        Ok (mkV ls (set cs c (swaths_sort p_default p_lt (sort_by_ids sort_perm) (cs c))))
    | MoveTo c r =>
        do l <- mapM (fun s => do p <- move_points r (sw_path s); Ok (swath_setPath s p)) (cs c);
        Ok (mkV ls (set cs c l))
    | GenSorted k v0 c d =>
        do r <- genSortedSwaths w_nonpos w_zero p_default p_lt wkt (sort_by_ids sort_perm) k (cs c) v0;
        Ok (mkV ls (set cs d r))
    end.
  Definition vrun (ops : list op) (v : vstate) : outcome vstate := foldM vstep ops v.

  (** What the variables of a state show. *)
  Definition views (st : @state P W) : vstate :=
    mkV (fun x => option_map (deref (st_heap st)) (st_line st x))
        (fun c => map (h_value (st_heap st)) (st_cont st c)).
  Definition same_values (v v' : vstate) : Prop :=
    (forall x, v_line v x = v_line v' x) /\ (forall c, v_cont v c = v_cont v' c).

  (** The places that hold the address of a line: a LineString variable, or an
      element of a Swaths variable. *)
  Inductive place := InLine (x : nat) | InSwaths (c i : nat).
  Definition holds (st : @state P W) (p : place) (a : nat) : Prop :=
    match p with
    | InLine x => st_line st x = Some a
    | InSwaths c i => exists s, nth_error (st_cont st c) i = Some s /\ sw_path s = [a]
    end.
  (** Nothing else points to the line of [p]. *)
  Definition unshared (st : @state P W) (p : place) : Prop :=
    forall a q, holds st p a -> holds st q a -> q = p.

  (** The places whose lines a statement changes in place. *)
  Definition changes (o : @op P W) (p : place) : Prop :=
    match o, p with
    | ReversePoints x, InLine y => y = x
    | ReverseSwath c i, InSwaths d j => d = c /\ j = i
    | ReverseDirOdd c, InSwaths d _ => d = c
    | Sort c, InSwaths d _ => d = c
    | MoveTo c _, InSwaths d _ => d = c
    | _, _ => False
    end.

  (** Statements that make a second place for a line. *)
  Definition shares (o : @op P W) : bool :=
    match o with
    | CopyLine _ _ | GetPath _ _ _ | SetPath _ _ _ | Emplace _ _ _ _ _
    | PushBack _ _ _ | Append _ _ | CopySwaths _ _ => true
    | _ => false
    end.

  (** The variables that a statement names. *)
  Definition names_line (o : @op P W) (x : nat) : Prop :=
    match o with
    | NewLine y _ | ReversePoints y | GetPath _ _ y | SetPath _ _ y | Emplace _ y _ _ _ => x = y
    | CopyLine y z | CloneLine y z => x = y \/ x = z
    | _ => False
    end.
  Definition names_cont (o : @op P W) (c : nat) : Prop :=
    match o with
    | GetPath d _ _ | SetPath d _ _ | Emplace d _ _ _ _ | EmplaceNew d _ _ _ _ | NewSwaths d
    | ReverseSwath d _ | ReverseOrder d | ReverseDirOdd d | Sort d | MoveTo d _ => c = d
    | PushBack d e _ | Append d e | CopySwaths d e | CloneSwaths d e | GenSorted _ _ d e =>
        c = d \/ c = e
    | _ => False
    end.

  (** Every address that a variable holds is one of the heap, and every swath
      has a line. *)
  Definition well_formed (st : @state P W) : Prop :=
    (forall x a, st_line st x = Some a -> a < length (st_heap st)) /\
    (forall c s, In s (st_cont st c) -> exists a, sw_path s = [a] /\ a < length (st_heap st)).

  (** No place of the two groups of variables, those in [gl] and [gc] and the
      others, points to the same line. *)
  Definition in_group (gl gc : nat -> Prop) (p : place) : Prop :=
    match p with InLine x => gl x | InSwaths c _ => gc c end.
  Definition apart (gl gc : nat -> Prop) (st : @state P W) : Prop :=
    forall p q a, in_group gl gc p -> ~ in_group gl gc q -> holds st p a -> holds st q a -> False.
  (** Statements that name variables of the group only. *)
  Definition within (gl gc : nat -> Prop) (o : @op P W) : Prop :=
    (forall x, names_line o x -> gl x) /\ (forall c, names_cont o c -> gc c).

  (** Statements that make a new line, or new swaths, out of other variables. *)
  Definition makes_anew (o : @op P W) : Prop :=
    match o with
    | CloneLine _ _ | CloneSwaths _ _ | GenSorted _ _ _ _ => True
    | _ => False
    end.

  (** A program that never changes a line in place while something else points
      to it. *)
  Fixpoint careful (st : @state P W) (ops : list op) : Prop :=
    match ops with
    | [] => True
    | o :: t =>
        (forall p, changes o p -> unshared st p) /\
        (forall st', step w_nonpos w_zero p_default p_lt wkt sort_perm move_points st o = Ok st' ->
                     careful st' t)
    end.
End Spec.
