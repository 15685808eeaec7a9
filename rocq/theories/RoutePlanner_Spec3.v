(** Specification vocabulary for the connections of a planned route (property C241). *)
From Coq Require Import List Arith ZArith Bool.
From Verif Require Import Outcome Swath_Model Graph2D_Model Graph2D_Spec RoutePlanner_Spec RoutePlanner_Spec2.
Import ListNotations.

Section Spec.
  Context {P W : Type}.
  Variable keq : P -> P -> bool.
  Variable dc : P -> P -> Z.

  (** [way h a b w]: the points [w] lead from [a] to [b] over inserted points and edges of a graph with
      the history [h], and no other route along these edges costs less; nothing is
      needed between two points that are the same. *)
  Definition way (h : list (g2op P)) (a b : P) (w : list P) : Prop :=
    (keq a b = true /\ w = []) \/
    (keq a b = false /\ incl w (inserted h) /\ exists c p q, pt_route keq dc h w c /\
       hd_error w = Some p /\ keq p a = true /\ hd_error (rev w) = Some q /\ keq q b = true /\
       least_cost keq dc h a b c).

  Variable p_default : P.
  (** [linked_by Way rse cs ws]: the swaths [cs] are driven one after the other, and [ws] are the
      connections: the first one leads from the start/end point to the first swath
      (and is empty without a start/end point), each further one from the end of a swath to the start of the next
      one, and the last one back to the start/end point. *)
  Fixpoint legs (Way : P -> P -> list P -> Prop) (rse : option P) (from : P) (cs : list (swath P W)) (ws : list (list P)) : Prop :=
    match cs, ws, rse with
    | [], [], None => True
    | [], [w], Some p => Way from p w
    | c :: cs, w :: ws, _ => Way from (first_pt p_default c) w /\ legs Way rse (last_pt p_default c) cs ws
    | _, _, _ => False
    end.
  Definition linked_by (Way : P -> P -> list P -> Prop) (rse : option P) (cs : list (swath P W)) (ws : list (list P)) : Prop :=
    match cs, ws with
    | c :: cs, w :: ws => (match rse with Some p => Way p (first_pt p_default c) w | None => w = [] end) /\
        legs Way rse (last_pt p_default c) cs ws
    | _, _ => False
    end.
End Spec.
