(** Specification vocabulary for fields that share their cells: what a program would do if
    every variable held its own cells, and which variables share an object.  *)
From Coq Require Import List Arith Bool Reals.
From Verif Require Import Outcome Num Point_Model Angle_Model Container_Model Text_Model Field_Model Transform_Model Parts_Spec Holder_Model.
Import ListNotations.
Local Open Scope nat_scope.

Section Spec.
  Variable mk : sptref -> sptref -> outcome (rpoint -> rpoint).
  Variable wkt : rpoint -> rpoint.
  Notation rcells := (cells RNum).

  (** Variables that hold values: a field together with its cells. *)
  Record vstate := mkV { v_cells : list rcells; v_field : list rfield }.

  (** A declared variable, and giving it a value. *)
  Definition read {B} (l : list B) (x : nat) : outcome B :=
    match nth_error l x with Some b => Ok b | None => Throw OutOfRange end.
  Definition set_cells (v : vstate) (x : nat) (c : rcells) : outcome (vstate * option exn) :=
    do _ <- read (v_cells v) x; Ok (mkV (replaced (v_cells v) x c) (v_field v), None).
  Definition set_field (v : vstate) (f : nat) (a : rfield) : outcome (vstate * option exn) :=
    do _ <- read (v_field v) f; Ok (mkV (v_cells v) (replaced (v_field v) f a), None).
  (** The field that a statement leaves, and what it throws. *)
  Definition left_as (v : vstate) (f : nat) (s : rfield * outcome unit) : outcome (vstate * option exn) :=
    match s with
    | (a, Ok _) => Ok (mkV (v_cells v) (replaced (v_field v) f a), None)
    | (a, Throw e) => Ok (mkV (v_cells v) (replaced (v_field v) f a), Some e)
    | (_, UB) => UB
    | (_, Hang) => Hang
    end.

  (** A copy is a new value, whatever it is copied from; the functions are those of
      Field_Model.v and Transform_Model.v, which know nothing of sharing. *)
  Definition vstep (v : vstate) (o : op) : outcome (vstate * option exn) :=
    let cs := v_cells v in
    let fs := v_field v in
    match o with
    | NewCells x c => set_cells v x c
    | CopyCells x y => do c <- read cs x; set_cells v y c
    | EditCells x e => do c <- read cs x; set_cells v x (e c)
    | NewField f => set_field v f (field_default RNum)
    | MakeField x id f => do c <- read cs x; do _ <- read fs f; do a <- field_make RNum wkt c id; set_field v f a
    | CopyField f g => do a <- read fs f; set_field v g a
    | CloneField f g => do a <- read fs f; do _ <- read fs g; do b <- field_clone RNum wkt a; set_field v g b
    | SetField f x => do a <- read fs f; do c <- read cs x; set_field v f (field_setField a c)
    | GetField f x => do a <- read fs f; set_cells v x (f_cells a)
    | EditField f e => do a <- read fs f; set_field v f (field_setField a (e (f_cells a)))
    | SetId f t => do a <- read fs f; set_field v f (field_setId a t)
    | SetCRS f t => do a <- read fs f; set_field v f (field_setCRS a t)
    | SetPrevCRS f t => do a <- read fs f; set_field v f (field_setPrevCRS a t)
    | SetRefPoint f p => do a <- read fs f; set_field v f (field_setRefPoint a p)
    | TransformField f to => do a <- read fs f; left_as v f (transform_field mk wkt a to)
    | ToUTM f b => do a <- read fs f; left_as v f (transformToUTM mk wkt a b)
    | ToPrevCRS f => do a <- read fs f; left_as v f (transformToPrevCRS mk wkt a)
    end.
  Definition vrun (ops : list op) (v : vstate) : outcome (vstate * list (option exn)) :=
    foldM (fun sl o => do r <- vstep (fst sl) o; Ok (fst r, snd sl ++ [snd r])) ops (v, []).

  (** What the variables of a state show. *)
  Definition views (st : state) : vstate :=
    mkV (map (fun a => nth a (st_heap st) []) (st_cells st))
        (map (fun f => mkField (h_id f) (h_crs f) (h_prev f) (h_ref f) (nth (h_cells f) (st_heap st) []))
             (st_field st)).

  (** Both ended the same way: same values in the variables, same exceptions. *)
  Definition same (r : state * list (option exn)) (v : vstate * list (option exn)) : Prop :=
    views (fst r) = fst v /\ snd r = snd v.

  (** Every address is one of the heap. *)
  Definition well_formed (st : state) : Prop :=
    Forall (fun a => a < length (st_heap st)) (st_cells st) /\
    Forall (fun f => h_cells f < length (st_heap st)) (st_field st).

  (** Statements that change an object in place. *)
  Definition edits (o : op) : bool := match o with EditCells _ _ | EditField _ _ => true | _ => false end.

  (** The variables: Cells or Field. *)
  Inductive place := InCells (x : nat) | InField (f : nat).
  (** The address that a variable holds. *)
  Definition holds (st : state) (p : place) (a : nat) : Prop :=
    match p with
    | InCells x => nth_error (st_cells st) x = Some a
    | InField f => option_map h_cells (nth_error (st_field st) f) = Some a
    end.
  (** The cells that a variable shows. *)
  Definition cells_at (v : vstate) (p : place) : option rcells :=
    match p with
    | InCells x => nth_error (v_cells v) x
    | InField f => option_map f_cells (nth_error (v_field v) f)
    end.
  (** Nothing else points to the object of [p]. *)
  Definition unshared (st : state) (p : place) : Prop :=
    forall a q, holds st p a -> holds st q a -> q = p.
  (** The variable whose object a statement changes in place. *)
  Definition edited (o : op) : option place :=
    match o with EditCells x _ => Some (InCells x) | EditField f _ => Some (InField f) | _ => None end.
  (** A program that changes an object in place only when a single variable points to it. *)
  Fixpoint careful (st : state) (ops : list op) : Prop :=
    match ops with
    | [] => True
    | o :: t =>
        (forall p, edited o = Some p -> unshared st p) /\
        (forall st' x, step mk wkt st o = Ok (st', x) -> careful st' t)
    end.

  (** The variables that a statement names. *)
  Definition names (o : op) (p : place) : Prop :=
    match o, p with
    | NewCells y _, InCells x | EditCells y _, InCells x | MakeField y _ _, InCells x
    | SetField _ y, InCells x | GetField _ y, InCells x => x = y
    | CopyCells y z, InCells x => x = y \/ x = z
    | NewField g, InField f | MakeField _ _ g, InField f | SetField g _, InField f | GetField g _, InField f
    | EditField g _, InField f | SetId g _, InField f | SetCRS g _, InField f | SetPrevCRS g _, InField f
    | SetRefPoint g _, InField f | TransformField g _, InField f | ToUTM g _, InField f | ToPrevCRS g, InField f => f = g
    | CopyField g k, InField f | CloneField g k, InField f => f = g \/ f = k
    | _, _ => False
    end.
  (** No variable of the group [G] shares its object with one outside. *)
  Definition apart (G : place -> Prop) (st : state) : Prop :=
    forall p q a, G p -> ~ G q -> holds st p a -> holds st q a -> False.
  (** Two states in which the variables outside [G] show the same, texts and reference
      points included. *)
  Definition same_outside (G : place -> Prop) (v v' : vstate) : Prop :=
    (forall x, ~ G (InCells x) -> nth_error (v_cells v') x = nth_error (v_cells v) x) /\
    (forall f, ~ G (InField f) -> nth_error (v_field v') f = nth_error (v_field v) f).
End Spec.
