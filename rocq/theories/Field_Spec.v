(** Specification vocabulary for fields and coordinate systems, independent of the
    model's functions. *)
From Coq Require Import Ascii String ZArith Bool Arith Reals List.
From Verif Require Import Num Point_Model Text_Spec Container_Spec.
Import ListNotations.

(** A letter or an underscore. *)
Definition a_mark (c : ascii) : Prop := a_letter c \/ c = "_"%char.

(** [t] starts with "UTM", signs, and the code [z]: digits and a mark, or two or more
    digits if no mark follows. *)
Definition utm_at (t z : list ascii) : Prop := exists sep d rest,
  t = list_ascii_of_string "UTM" ++ sep ++ d ++ rest /\ all a_sign sep /\ d <> [] /\ all a_digit d /\
  ends a_digit rest /\
  ((exists c r, rest = c :: r /\ a_mark c /\ z = d ++ [c]) \/
   (ends a_mark rest /\ (2 <= length d)%nat /\ z = d)).

(** [t] starts with "datum", signs and the name [z], which ends at the next sign. *)
Definition datum_at (t z : list ascii) : Prop := exists sep rest,
  t = list_ascii_of_string "datum" ++ sep ++ z ++ rest /\ all a_sign sep /\ z <> [] /\
  all (fun c => a_digit c \/ a_letter c) z /\ ends (fun c => a_digit c \/ a_letter c) rest.

(** The first place in [s] where [at_] holds has the value [z]. *)
Definition first_at (at_ : list ascii -> list ascii -> Prop) (s z : list ascii) : Prop := exists a t,
  s = a ++ t /\ at_ t z /\ forall a' t' z', s = a' ++ t' -> (length a' < length a)%nat -> ~ at_ t' z'.
(** There is no such place. *)
Definition nowhere (at_ : list ascii -> list ascii -> Prop) (s : list ascii) : Prop :=
  forall a t z, s = a ++ t -> ~ at_ t z.

(** Cells whose polygons have an exterior ring with points and whose rings are
    closed. *)
Definition well_formed {A} (c : list (list (list A))) : Prop := forall x, In x c ->
  (exists p r rs, x = (p :: r) :: rs) /\ forall r, In r x -> closed r.

(** Two points differ by at most [e] in each coordinate. *)
Definition within (e : R) (p q : pt) : Prop :=
  (Rabs (px p - px q) <= e /\ Rabs (py p - py q) <= e /\ Rabs (pz p - pz q) <= e)%R.

(** The same for cells, with equal structure. *)
Definition cells_within (e : R) : list (list (list pt)) -> list (list (list pt)) -> Prop :=
  Forall2 (Forall2 (Forall2 (within e))).
