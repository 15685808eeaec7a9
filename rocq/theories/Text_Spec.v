(** Specification vocabulary for texts, independent of the model's functions. *)
From Coq Require Import Ascii String ZArith Bool Arith List.
Import ListNotations.

(** [w] occurs in [s]. *)
Definition occurs (w s : list ascii) : Prop := exists a b, s = a ++ w ++ b.

(** Digits, letters and the rest. *)
Definition digits : list ascii := list_ascii_of_string "0123456789".
Definition letters : list ascii := list_ascii_of_string "abcdefghijklmnopqrstuvwxyzABCDEFGHIJKLMNOPQRSTUVWXYZ".
Definition a_digit (c : ascii) : Prop := In c digits.
Definition a_letter (c : ascii) : Prop := In c letters.
Definition a_sign (c : ascii) : Prop := ~ a_digit c /\ ~ a_letter c.

(** [s] is made of characters with property [P]. *)
Definition all (P : ascii -> Prop) (s : list ascii) : Prop := forall c, In c s -> P c.

(** [s] is empty or starts with a character without property [P]. *)
Definition ends (P : ascii -> Prop) (s : list ascii) : Prop := forall c t, s = c :: t -> ~ P c.

(** Value of a digit and of a list of digits. *)
Definition digit_value (c : ascii) (d : Z) : Prop := (0 <= d)%Z /\ nth_error digits (Z.to_nat d) = Some c.
Inductive decimal : list ascii -> Z -> Prop :=
| dec_one : forall c d, digit_value c d -> decimal [c] d
| dec_more : forall s n c d, decimal s n -> digit_value c d -> decimal (s ++ [c]) (10 * n + d).
