(** Specification vocabulary for graphs: edges, walks, costs.  Independent of
    the algorithms of the model. *)
From Coq Require Import List Arith ZArith.
Import ListNotations.

Section Spec.
  (** [E i j c]: there is an edge from [i] to [j] with cost [c]. *)
  Variable E : nat -> nat -> Z -> Prop.

  (** [walk i j c]: some walk from [i] to [j] has total cost [c]. *)
  Inductive walk : nat -> nat -> Z -> Prop :=
  | walk_nil : forall i, walk i i 0%Z
  | walk_step : forall i m j c c', E i m c -> walk m j c' -> walk i j (c + c')%Z.

  (** [route l c]: the node list [l] follows edges whose costs add up to [c]. *)
  Inductive route : list nat -> Z -> Prop :=
  | route_one : forall i, route [i] 0%Z
  | route_cons : forall i m l c c',
      E i m c -> route (m :: l) c' -> route (i :: m :: l) (c + c')%Z.
End Spec.

(** A node list that follows edges (costs ignored), visits no node twice, starts
    at [a] and ends at [b]. *)
Definition simple_path (E : nat -> nat -> Z -> Prop) (a b : nat) (l : list nat) : Prop :=
  NoDup l /\ hd_error l = Some a /\ hd_error (rev l) = Some b /\ exists c, route E l c.

(** The edge relation stored in a nested association list. *)
Definition edge_in (e : list (nat * list (nat * Z))) (i j : nat) (c : Z) : Prop :=
  exists m, In (i, m) e /\ In (j, c) m.

(** No key occurs twice (what unordered_map guarantees). *)
Definition keys_unique (e : list (nat * list (nat * Z))) : Prop :=
  NoDup (map fst e) /\ forall i m, In (i, m) e -> NoDup (map fst m).

(** Node ids are exactly 0..N-1, where N is the number of outer keys. *)
Definition ids_dense (e : list (nat * list (nat * Z))) : Prop :=
  (forall i m, In (i, m) e -> i < length e) /\
  (forall i j c, edge_in e i j c -> j < length e).

(** All costs in [0, INF), and INF at most 2^62, so that sums of two entries
    fit in an int64_t. *)
Definition costs_ok (INF : Z) (e : list (nat * list (nat * Z))) : Prop :=
  (0 < INF <= 4611686018427387904)%Z /\
  forall i j c, edge_in e i j c -> (0 <= c < INF)%Z.

(** [c] is the minimum cost over all walks from [i] to [j], cut off at [INF]:
    attained by a walk, or [INF] when no walk is cheaper than [INF]. *)
Definition is_shortest (E : nat -> nat -> Z -> Prop) (INF : Z) (i j : nat) (c : Z) : Prop :=
  ((c < INF)%Z /\ walk E i j c \/ c = INF) /\
  (forall c', walk E i j c' -> (c' < INF)%Z -> (c <= c')%Z).

