(** Specification vocabulary for coverage tours and the routes made of them. *)
From Coq Require Import List Arith ZArith Bool Permutation.
From Verif Require Import Outcome Swath_Model Graph_Spec Graph2D_Model.
Import ListNotations.

Section Spec.
  Context {P W : Type}.
  Variable keq : P -> P -> bool.
  Variable p_default : P.
  Variable mid : P -> P -> P.

  Definition first_pt (s : swath P W) : P := hd p_default (sw_path s).
  Definition last_pt (s : swath P W) : P := last (sw_path s) p_default.

  (** The three nodes that stand for one swath. *)
  Definition swath_nodes (s : swath P W) : list P :=
    [first_pt s; last_pt s; mid (first_pt s) (last_pt s)].

  Definition pairwise_different (l : list P) : Prop := ForallOrdPairs (fun p q => keq p q = false) l.

  (** A round tour from node [d] through all nodes below [d], along existing arcs. *)
  Definition round_tour (e : list (nat * list (nat * Z))) (d : nat) (ids : list nat) : Prop :=
    Permutation ids (seq 0 d) /\
    forall i a b, nth_error (d :: ids ++ [d]) i = Some a -> nth_error (d :: ids ++ [d]) (S i) = Some b ->
      exists c, edge_in e a b c.

  (** [c] is swath number [fst kb] of [ss], driven backwards when [snd kb];
      the copy is of type MAINLAND whatever the type of the swath. *)
  Definition driven (wkt : P -> P) (ss : list (swath P W)) (c : swath P W) (kb : nat * bool) : Prop :=
    exists s, nth_error ss (fst kb) = Some s /\
      sw_path c = (if snd kb then rev (map wkt (sw_path s)) else map wkt (sw_path s)) /\
      sw_width c = sw_width s /\ sw_id c = sw_id s /\ sw_type c = MAINLAND /\
      sw_dir c = xorb (snd kb) (sw_dir s).

  (** Numbers of the swaths whose middle is the point [p]. *)
  Definition mids_at (ss : list (swath P W)) (p : P) : list nat :=
    filter (fun k => match nth_error ss k with
                     | Some s => keq (mid (first_pt s) (last_pt s)) p
                     | None => false
                     end) (seq 0 (length ss)).

  (** Graphs satisfying [Inv] answer every path and cost query between the points
      of [pts], connect them, and go on doing so. *)
  Definition answers (Inv : graph2d P -> Prop) (pts : list P) : Prop :=
    forall sg a b, Inv sg ->
    (exists p, In p pts /\ keq p a = true) -> (exists p, In p pts /\ keq p b = true) ->
    (exists sg' path, g2_shortestPath keq sg a b g2_INF = Ok (sg', path) /\ Inv sg' /\
      (keq a b = false -> path <> []) /\
      (path <> [] -> exists p q, hd_error path = Some p /\ keq p a = true /\
                                 hd_error (rev path) = Some q /\ keq q b = true)) /\
    (exists sg' c, g2_shortestPathCost keq sg a b g2_INF = Ok (sg', c) /\ Inv sg').

  Definition end_points (ss : list (swath P W)) : list P := flat_map (fun s => [first_pt s; last_pt s]) ss.
  Definition opt_list (o : option P) : list P := match o with Some p => [p] | None => [] end.

  (** ** Connectivity asked of the shortest-path graph *)
  Variable closest : P -> outcome P.
  Variable near : P -> P -> P -> bool.

  (** Edges put into the graph before any edge is split. *)
  Inductive base (start_end : option P) (rings : list (list P)) (ss : list (swath P W)) : P -> P -> Prop :=
  | base_first : forall s c, In s ss -> closest (first_pt s) = Ok c -> base start_end rings ss (first_pt s) c
  | base_last : forall s c, In s ss -> closest (last_pt s) = Ok c -> base start_end rings ss (last_pt s) c
  | base_ring : forall ring i a b, In ring rings -> nth_error ring i = Some a -> nth_error ring (S i) = Some b ->
      base start_end rings ss a b
  | base_start_end : forall p c, start_end = Some p -> closest p = Ok c -> base start_end rings ss p c.

  (** Points joined by those edges, and by being near one of them. *)
  Inductive joined (start_end : option P) (rings : list (list P)) (ss : list (swath P W)) : P -> P -> Prop :=
  | j_same : forall p q, keq p q = true -> joined start_end rings ss p q
  | j_base : forall a b, base start_end rings ss a b -> joined start_end rings ss a b
  | j_near : forall a b n m, base start_end rings ss a b ->
      base start_end rings ss n m \/ base start_end rings ss m n ->
      near a b n = true -> joined start_end rings ss n a
  | j_sym : forall p q, joined start_end rings ss p q -> joined start_end rings ss q p
  | j_trans : forall p q r, joined start_end rings ss p q -> joined start_end rings ss q r -> joined start_end rings ss p r.

  (** Segments the robot may drive: edges of the first kind, and parts of a
      segment between one of its ends and a node near it. *)
  Inductive segment (start_end : option P) (rings : list (list P)) (ss : list (swath P W)) : P -> P -> Prop :=
  | seg_base : forall a b, base start_end rings ss a b -> segment start_end rings ss a b
  | seg_sym : forall a b, segment start_end rings ss a b -> segment start_end rings ss b a
  | seg_same : forall a b a' b', segment start_end rings ss a b -> keq a a' = true -> keq b b' = true ->
      segment start_end rings ss a' b'
  | seg_part : forall a b n m, segment start_end rings ss a b ->
      base start_end rings ss n m \/ base start_end rings ss m n ->
      keq n a = false -> keq n b = false -> near a b n = true -> segment start_end rings ss a n.

  (** All (from, to) pairs of an edge map. *)
  Definition edge_pairs (e : list (nat * list (nat * Z))) : list (nat * nat) :=
    flat_map (fun im => map (fun jc => (fst im, fst jc)) (snd im)) e.
End Spec.
