(** Specification vocabulary for the arcs of the coverage graph and their costs. *)
From Coq Require Import List Arith ZArith Bool.
From Verif Require Import Outcome Swath_Model Graph2D_Model Graph2D_Spec RoutePlanner_Spec.
Import ListNotations.

Section Spec.
  Context {P W : Type}.
  Variable keq : P -> P -> bool.
  Variable p_default : P.
  Variable mid : P -> P -> P.
  Variable far : P.
  Variable start_end : option P.
  Variable redirect : bool.
  Variable ss : list (swath P W).
  Notation first := (first_pt p_default).
  Notation final := (last_pt p_default).
  Definition middle (s : swath P W) : P := mid (first s) (final s).
  Definition ends (s : swath P W) : list P := [first s; final s].

  (** [travel a b c]: going from [a] to [b] along the borders costs [c]. *)
  Variable travel : P -> P -> Z -> Prop.

  (** [cov_arc p q c]: the solver may go from [p] to [q] at cost [c].  Driving a swath is
      free and goes through its middle; between swaths, and from and to the start/end
      point, one travels along the borders; without such a point the depot [far] is at
      no distance from every swath end. *)
  Inductive cov_arc : P -> P -> Z -> Prop :=
  | ca_in : forall s, In s ss -> cov_arc (first s) (middle s) 0
  | ca_out : forall s, In s ss -> cov_arc (middle s) (final s) 0
  | ca_in_back : forall s, redirect = true -> In s ss -> cov_arc (final s) (middle s) 0
  | ca_out_back : forall s, redirect = true -> In s ss -> cov_arc (middle s) (first s) 0
  | ca_next : forall s t c, In s ss -> In t ss -> travel (final s) (first t) c -> cov_arc (final s) (first t) c
  | ca_any : forall s t a b c, redirect = true -> In s ss -> In t ss -> In a (ends s) -> In b (ends t) ->
      travel a b c -> cov_arc a b c
  | ca_leave : forall d s a c, start_end = Some d -> In s ss -> In a (ends s) -> travel d a c -> cov_arc d a c
  | ca_return : forall d s a c, start_end = Some d -> In s ss -> In a (ends s) -> travel a d c -> cov_arc a d c
  | ca_leave_far : forall s a, start_end = None -> In s ss -> In a (ends s) -> cov_arc far a 0
  | ca_return_far : forall s a, start_end = None -> In s ss -> In a (ends s) -> cov_arc a far 0
  | ca_same : forall p q p' q' c, cov_arc p q c -> keq p p' = true -> keq q q' = true -> cov_arc p' q' c.

  (** The least cost of a route from [a] to [b] along the edges of a graph with the
      history [h]. *)
  Definition least_cost (dc : P -> P -> Z) (h : list (g2op P)) (a b : P) (c : Z) : Prop :=
    (exists l p q, pt_route keq dc h l c /\ hd_error l = Some p /\ keq p a = true /\ hd_error (rev l) = Some q /\ keq q b = true) /\
    (forall l c' p q, pt_route keq dc h l c' -> hd_error l = Some p -> keq p a = true ->
       hd_error (rev l) = Some q -> keq q b = true -> (c <= c')%Z).
End Spec.
