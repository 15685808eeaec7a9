(** Specification vocabulary for graphs over points: what a history of calls
    says about nodes and edges, read off the history alone. *)
From Coq Require Import List ZArith Bool.
From Verif Require Import Graph2D_Model.
Import ListNotations.

Section Spec.
  Context {P : Type}.
  Variable keq : P -> P -> bool.
  Variable dist_cost : P -> P -> Z.

  (** [keq] is an equivalence relation. *)
  Definition equivalence : Prop :=
    (forall p, keq p p = true) /\
    (forall p q, keq p q = keq q p) /\
    (forall p q r, keq p q = true -> keq q r = true -> keq p r = true).

  (** Points given to an insertion. *)
  Definition op_points (o : g2op P) : list P :=
    match o with
    | G2AddDirected a b _ | G2Add a b _ | G2AddDirectedDist a b | G2AddDist a b => [a; b]
    | _ => []
    end.
  Definition inserted (h : list (g2op P)) : list P := flat_map op_points h.

  (** Cost of the edge from [p] to [q] after one more call. *)
  Definition g2op_cost (p q : P) (o : g2op P) (old : option Z) : option Z :=
    let is a b := keq a p && keq b q in
    match o with
    | G2AddDirected a b c => if is a b then Some c else old
    | G2Add a b c => if is a b || is b a then Some c else old
    | G2AddDirectedDist a b => if is a b then Some (dist_cost a b) else old
    | G2AddDist a b => if is a b || is b a then Some (dist_cost a b) else old
    | G2RemoveDirected a b => if is a b then None else old
    | G2Remove a b => if is a b || is b a then None else old
    | _ => old
    end.
  Definition g2_edge (h : list (g2op P)) (p q : P) : option Z :=
    fold_left (fun old o => g2op_cost p q o old) h None.

  (** Calls that insert edges in both directions, remove edges, or query. *)
  Definition two_way (o : g2op P) : bool :=
    match o with G2AddDirected _ _ _ | G2AddDirectedDist _ _ => false | _ => true end.
  Definition is_query (o : g2op P) : bool :=
    match o with G2Path _ _ _ | G2Cost _ _ _ => true | _ => false end.
  Definition is_removal (o : g2op P) : bool :=
    match o with G2RemoveDirected _ _ | G2Remove _ _ => true | _ => false end.
  Definition g2op_infs (o : g2op P) : list Z :=
    match o with G2Path _ _ i | G2Cost _ _ i => [i] | _ => [] end.
  Definition g2_infs (h : list (g2op P)) : list Z := flat_map g2op_infs h.

  (** A list of points that follows edges of [h], with total cost [c]. *)
  Inductive pt_route (h : list (g2op P)) : list P -> Z -> Prop :=
  | pr_one : forall p, pt_route h [p] 0%Z
  | pr_cons : forall p q l c c', g2_edge h p q = Some c -> pt_route h (q :: l) c' ->
      pt_route h (p :: q :: l) (c + c')%Z.
End Spec.
