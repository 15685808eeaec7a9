(** Specification vocabulary for best routes (properties C256 and C257). *)
From Coq Require Import List Arith ZArith Bool Reals.
From Verif Require Import Outcome Swath_Model Graph_Spec Graph2D_Model Graph2D_Spec RoutePlanner_Spec.
Import ListNotations.

(** No round tour from node [d] through all nodes below [d] costs less than the one along [ids]. *)
Definition cheapest_tour (e : list (nat * list (nat * Z))) (d : nat) (ids : list nat) : Prop :=
  round_tour e d ids /\
  exists c, route (edge_in e) (d :: ids ++ [d]) c /\
  forall ids' c', round_tour e d ids' -> route (edge_in e) (d :: ids' ++ [d]) c' -> (c <= c')%Z.

Section Spec.
  Context {P W : Type}.
  Variable keq : P -> P -> bool.
  Variable dc : P -> P -> Z.

  (** [leg_cost h a b w c]: the points [w] lead from [a] to [b] along edges, at cost [c], of a graph with
      the history [h]; nothing is needed, and it costs nothing, between two points that are the same. *)
  Definition leg_cost (h : list (g2op P)) (a b : P) (w : list P) (c : Z) : Prop :=
    (keq a b = true /\ w = [] /\ c = 0%Z) \/
    (pt_route keq dc h w c /\ exists p q, hd_error w = Some p /\ keq p a = true /\ hd_error (rev w) = Some q /\ keq q b = true).

  Variable p_default : P.
  (** [trip_cost Leg rse cs ws c]: the swaths [cs] can be driven one after the other with the connections [ws]
      between them, which cost [c] altogether; the first one leads from the start/end point to the first swath and
      the last one back to the start/end point, when there is one. *)
  Fixpoint rest_cost (Leg : P -> P -> list P -> Z -> Prop) (rse : option P) (from : P) (cs : list (swath P W))
    (ws : list (list P)) (c : Z) : Prop :=
    match cs, ws, rse with
    | [], [], None => c = 0%Z
    | [], [w], Some p => Leg from p w c
    | s :: cs, w :: ws, _ => exists c1 c2, Leg from (first_pt p_default s) w c1 /\
        rest_cost Leg rse (last_pt p_default s) cs ws c2 /\ c = (c1 + c2)%Z
    | _, _, _ => False
    end.
  Definition trip_cost (Leg : P -> P -> list P -> Z -> Prop) (rse : option P) (cs : list (swath P W))
    (ws : list (list P)) (c : Z) : Prop :=
    match cs, ws with
    | s :: cs, w :: ws => exists c1 c2,
        (match rse with Some p => Leg p (first_pt p_default s) w c1 | None => w = [] /\ c1 = 0%Z end) /\
        rest_cost Leg rse (last_pt p_default s) cs ws c2 /\ c = (c1 + c2)%Z
    | _, _ => False
    end.
End Spec.

Section Lengths.
  Context {P : Type}.
  Variable dist : P -> P -> R.
  (** The length of a list of points, of several of them, and the number of their pieces. *)
  Fixpoint walk_length (w : list P) : R :=
    match w with
    | a :: ((b :: _) as t) => (dist a b + walk_length t)%R
    | _ => 0%R
    end.
  Definition total_length (ws : list (list P)) : R := fold_right Rplus 0%R (map walk_length ws).
  Definition pieces (ws : list (list P)) : nat := list_sum (map (fun w => length w - 1) ws).
End Lengths.
