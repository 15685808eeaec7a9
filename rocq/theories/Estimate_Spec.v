(** Specification vocabulary for the modified swath count: rise and fall of a closed border;
    independent of the model. *)
From Coq Require Import List Reals.
From Verif Require Import Num.
Import ListNotations.
Open Scope R_scope.

(** The numbers of a list do not fall, or do not rise. *)
Fixpoint rising (l : list R) : Prop :=
  match l with a :: ((b :: _) as t) => a <= b /\ rising t | _ => True end.
Fixpoint falling (l : list R) : Prop :=
  match l with a :: ((b :: _) as t) => b <= a /\ falling t | _ => True end.

(** Going round, the numbers rise once and fall once: from wherever the list starts they first
    fall to [p], rise to [q] and fall again, or the other way round. *)
Definition once_up_and_down (l : list R) : Prop :=
  (exists l1 p l2 q l3, l = l1 ++ p :: l2 ++ q :: l3 /\ falling (l1 ++ [p]) /\ rising (p :: l2 ++ [q]) /\ falling (q :: l3)) \/
  (exists l1 p l2 q l3, l = l1 ++ p :: l2 ++ q :: l3 /\ rising (l1 ++ [p]) /\ falling (p :: l2 ++ [q]) /\ rising (q :: l3)).

(** A list that ends where it starts. *)
Definition comes_back {A} (l : list A) : Prop := exists a m, l = [a] \/ l = a :: m ++ [a].
