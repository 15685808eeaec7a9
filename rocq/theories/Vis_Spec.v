(** Specification vocabulary for drawings, independent of the model's functions. *)
From Coq Require Import List ZArith Reals.
From Verif Require Import Num Point_Model Path_Model Vis_Model.
Import ListNotations.

(** [d] is the curve through the points, drawn in the colour if it has three components. *)
Definition curve_through {N : Num} (l : list (point N)) (c : list N) (d : drawn N) : Prop :=
  dr_shape d = Curve (map px l) (map py l) /\ dr_width d = Some (nofZ N 1) /\
  (3 <= length c -> dr_color d = Some c) /\ (length c < 3 -> dr_color d = None).

(** A line of two or more points as a curve through all of them and an arrow over the last two;
    a shorter one not at all. *)
Definition with_arrow {N : Num} (l : list (point N)) (c : list N) (ds : list (drawn N)) : Prop :=
  (length l < 2 /\ ds = []) \/
  exists m a b d, l = m ++ [a; b] /\ curve_through l c d /\
    ds = [d; mkDrawn (Arrow (px a) (py a) (px b) (py b)) (Some (nofZ N 1)) (Some c)].

(** The things drawn for the elements of a list, one after the other. *)
Definition one_by_one {N : Num} {A} (P : nat -> A -> list (drawn N) -> Prop) (l : list A) (ds : list (drawn N)) : Prop :=
  exists chunks, ds = concat chunks /\ length chunks = length l /\
  forall i x ch, nth_error l i = Some x -> nth_error chunks i = Some ch -> P i x ch.

(** Type and direction of a state. *)
Definition kind {N : Num} (s : pstate N) : Z * Z := (ps_type s, ps_dir s).

(** Groups of states: a group goes on until and including the first state of another kind
    than the states before it. *)
Inductive grouped {N : Num} : Z * Z -> list (pstate N) -> list (list (pstate N)) -> Prop :=
| grouped_last : forall k l, (forall s, In s l -> kind s = k) -> grouped k l [l]
| grouped_cut : forall k m s l gs, (forall x, In x m -> kind x = k) -> kind s <> k -> grouped (kind s) l gs ->
    grouped k (m ++ s :: l) ((m ++ [s]) :: gs).

(** Evenly spaced numbers from [a] to [b]. *)
Definition evenly (a b : R) (l : list R) : Prop := exists h,
  (forall i x, nth_error l i = Some x -> x = (a + INR i * h)%R) /\ (a + INR (length l - 1) * h = b)%R.

(** The parts that a loop over the parts visits: all, or none when there is no point. *)
Definition visited {A} (l : list (list A)) : list (list A) := match concat l with [] => [] | _ => l end.
Definition visited_cells {A} (l : list (list (list A))) : list (list (list A)) := match concat (map (@concat A) l) with [] => [] | _ => l end.

(** [d] is the ring filled with the colour. *)
Definition filled_with {N : Num} (r : list (point N)) (c : list N) (d : drawn N) : Prop :=
  dr_shape d = Filled (map px r) (map py r) /\ dr_color d = Some c.

(** A cell with a point is filled: its border in one colour, then its holes in the other. *)
Definition filled_cell {N : Num} (poly holes : list N) (cell : list (list (point N))) (ds : list (drawn N)) : Prop :=
  (concat cell = [] /\ ds = []) \/
  exists border rest d dh, concat cell <> [] /\ cell = border :: rest /\ filled_with border poly d /\ ds = d :: dh /\
    Forall2 (fun r d => filled_with r holes d) rest dh.

(** The colours between which the swaths of the i-th set are drawn: green, red, blue,
    magenta, cyan and yellow in turn, each going to a dark one. *)
Definition ramp (i : nat) : list Z * list Z :=
  match Nat.modulo i 6 with
  | 0 => ([0; 255; 0], [15; 21; 11])%Z
  | 1 => ([255; 0; 0], [21; 15; 11])%Z
  | 2 => ([0; 0; 255], [11; 15; 21])%Z
  | 3 => ([255; 0; 255], [21; 15; 21])%Z
  | 4 => ([0; 255; 255], [0; 21; 21])%Z
  | _ => ([255; 255; 0], [21; 21; 0])%Z
  end.
