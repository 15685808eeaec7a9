(** Theorems about routes that share their connections (C282 to C287). *)
From Coq Require Import List Arith Bool Lia ZArith.
From Verif Require Import Outcome ListAux Swath_Model Route_Model Alias_Spec RShare_Model RShare_Spec
  RShare_Proofs RShare_Proofs2 RShare_Proofs3 RShare_Proofs4.
Import ListNotations.
Local Open Scope nat_scope.

Section Props.
  Context {P W : Type}.
  Variable w_nonpos : W -> bool.
  Variable w_zero : W.
  Variable wkt : P -> P.
  Variables grow fit : nat -> nat.
  Notation state := (state P W).
  Notation op := (op P W).
  Notation step := (step w_nonpos w_zero wkt grow fit).
  Notation run := (run w_nonpos w_zero wkt grow fit).
  Notation vrun := (vrun w_nonpos w_zero wkt).

  (** C282: a program that copies no route or points, and neither gets nor sets a
      connection, does what it would do if every variable held its own points. *)
  Theorem route_values : forall nx nr (ops : list op),
    Forall (fun o => shares o = false) ops ->
    orel (fun st v => views st = v) (run ops (st_init nx nr)) (vrun ops (mkV (repeat [] nx) (repeat (mkRoute [] []) nr))).
  Proof.
    intros nx nr ops F.
    assert (E : views (W := W) (st_init nx nr) = mkV (repeat (@nil P) nx) (repeat (mkRoute [] []) nr)).
    { unfold views, st_init. cbn [st_heap st_pts st_route]. f_equal.
      - clear. apply nth_ext with (d := []) (d' := []); [rewrite map_length, seq_length, repeat_length; reflexivity|].
        intros i Hi. rewrite map_length, seq_length in Hi.
        rewrite (nth_indep _ [] (nth 0 (repeat (@nil P) nx) [])) by (rewrite map_length, seq_length; exact Hi).
        rewrite (map_nth (fun a => nth a (repeat (@nil P) nx) [])), seq_nth by exact Hi. reflexivity.
      - clear. induction nr; cbn; auto. f_equal. exact IHnr. }
    rewrite <- E. apply run_same; [apply init_wf|]. apply solo_careful; auto; [apply init_wf|apply init_solo].
  Qed.

  (** C283: so does every program that adds points in place only to an object that nothing
      else points to, and passes no reference that dangles. *)
  Theorem route_values_careful : forall (st : state) (ops : list op), well_formed st ->
    careful w_nonpos w_zero wkt grow fit st ops ->
    orel (fun st v => views st = v) (run ops st) (vrun ops (views st)).
  Proof. intros st ops. apply run_same. Qed.

  (** C284: points that are added in place show at every place that points to the object,
      and nowhere else. *)
  Theorem route_write_exact : forall (st st' : state) (o : op) p l, well_formed st ->
    writes st o p l -> step st o = Ok st' ->
    forall q, (same_object st p q -> points_at (views st') q = option_map (fun c => c ++ l) (points_at (views st) q)) /\
      (~ same_object st p q -> points_at (views st') q = points_at (views st) q).
  Proof. intros st st' o p l Wf Wr H q. eapply route_write_exact0; eauto. Qed.

  (** C285: a clone shares nothing with anything. *)
  Theorem route_clone_alone : forall (st st' : state) r s i, well_formed st ->
    step st (CloneRoute r s) = Ok st' -> unshared st' (InConn s i).
  Proof. intros st st' r s i. apply clone_new. Qed.

  (** C285: programs on variables that share nothing with the others change none of the
      others, and go on sharing nothing with them. *)
  Theorem route_groups : forall (G : variable -> Prop) (ops : list op) (st st' : state), well_formed st -> apart G st ->
    (forall o p, In o ops -> names o p -> G p) -> run ops st = Ok st' ->
    apart G st' /\ same_outside G (views st) (views st').
  Proof.
    intros G ops st st' Wf A N. apply run_group; auto. apply Forall_forall. intros o Ho p. apply N; exact Ho.
  Qed.

  (** C287: r.addConnection(r.getConnection(i)) is undefined exactly when there is no
      connection i, or when a connection is added, the vector has to move, and connection i
      has no point or more than one. *)
  Theorem route_own_exact : forall (st : state) r i, well_formed st ->
    (step st (AddConnOwn r i) = UB <->
      exists v, nth_error (st_route st) r = Some v /\ (length (hr_conns v) <= i \/ dangles st (AddConnOwn r i))).
  Proof. intros st r i. apply own_exact0. Qed.

  (** C287, refuted, for every way in which the vector may grow: there is a program whose
      last statement is r.addConnection(r.getConnection(0)), that shares nothing before,
      that would end if every variable held its own points, and that is undefined. *)
  Theorem route_own_refuted : forall (p q : P) (s : swath P W),
    exists pre v, Forall (fun o => shares o = false) pre /\
      run (pre ++ [AddConnOwn 0 0]) (st_init 0 1) = UB /\ vrun (pre ++ [AddConnOwn 0 0]) (views (st_init 0 1)) = Ok v.
  Proof. intros p q s. exact (own_dangles0 w_nonpos w_zero wkt grow fit s p q). Qed.
End Props.
Print Assumptions route_values.
Print Assumptions route_values_careful.
Print Assumptions route_write_exact.
Print Assumptions route_clone_alone.
Print Assumptions route_groups.
Print Assumptions route_own_exact.
Print Assumptions route_own_refuted.

(** ** Examples *)
Definition ex_pos (w : nat) : bool := w =? 0.
Definition ex_grow (n : nat) : nat := n + Nat.max n 1.
Notation ex_step := (step ex_pos 0 (fun p : nat => p) ex_grow (fun n => n)).
Notation ex_run := (run ex_pos 0 (fun p : nat => p) ex_grow (fun n => n)).
Notation ex_vrun := (vrun ex_pos 0 (fun p : nat => p)).
Definition ex_swath : swath nat nat := mkSwath nat nat 1%Z [5; 6] 2 true MAINLAND.

(** A route with two connections and two groups of swaths. *)
Definition ex_route : list (op nat nat) :=
  [AddConnVec 0 [1; 2]; AddSwath 0 ex_swath; NewPoints 0 [7; 8]; AddPoint 0 9; AddConnPoints 0 0; AddSwath 0 ex_swath].

Example route_values_ex : Forall (fun o => shares o = false) (ex_route ++ [CloneRoute 0 1; AddConnPoint 1 4]) /\
  exists st, ex_run (ex_route ++ [CloneRoute 0 1; AddConnPoint 1 4]) (st_init 1 2) = Ok st /\
    points_at (views st) (InConn 1 2) = Some [4] /\ points_at (views st) (InConn 0 1) = Some [7; 8; 9] /\
    points_at (views st) (InConn 0 2) = None.
Proof. split; [repeat (constructor; [reflexivity|]); constructor|]. eexists. split; [vm_compute; reflexivity|]. repeat split. Qed.

(** A route and its copy: one object, three places. *)
Definition ex_shared : state nat nat :=
  mkState [[]; [1]] [1] [mkHR [] [1] 1; mkHR [] [1] 1].
Lemma ex_shared_wf : well_formed ex_shared.
Proof. split; repeat constructor. Qed.
Example ex_shared_made : ex_run [AddConnPoint 0 1; CopyRoute 0 1; GetConn 1 0 0] (st_init 1 2) = Ok ex_shared.
Proof. reflexivity. Qed.

(** A copied route may be extended where the copy begins a new connection. *)
Example route_values_careful_ex :
  well_formed ex_shared /\
  careful ex_pos 0 (fun p : nat => p) ex_grow (fun n => n) ex_shared [AddSwath 1 ex_swath; AddConnPoint 1 2] /\
  exists st, ex_run [AddSwath 1 ex_swath; AddConnPoint 1 2] ex_shared = Ok st /\
    same_object st (InConn 0 0) (InConn 1 0) /\ points_at (views st) (InConn 1 1) = Some [2].
Proof.
  split; [exact ex_shared_wf|]. split.
  - cbn [careful]. split; [|split; [cbn; tauto|]].
    { intros [x|r i] l H; cbn in H; [destruct H as (q & H & _); discriminate|]. destruct H as [(q & H & _)|[[] _]]. discriminate. }
    intros st' H. vm_compute in H. injection H as <-. split; [|split; [cbn; tauto|intros; exact I]].
    intros [x|r i] l H N; cbn in H; [destruct H as (q & H & _); discriminate|].
    destruct H as [(q & H & _)|[[<- ->] (v & Hv & Ho & _)]]; [discriminate|]. injection Hv as <-. cbn in Ho. lia.
  - eexists. split; [reflexivity|]. split; [|reflexivity]. exists 1. split; eexists; split; reflexivity.
Qed.

Example route_write_exact_ex :
  well_formed ex_shared /\ writes ex_shared (AddConnPoints 1 0) (InConn 1 0) [1] /\
  same_object ex_shared (InConn 1 0) (InConn 0 0) /\
  exists st', ex_step ex_shared (AddConnPoints 1 0) = Ok st' /\ points_at (views st') (InConn 0 0) = Some [1; 1].
Proof.
  split; [exact ex_shared_wf|]. split.
  { right. split; [split; [reflexivity|]; exists 1; split; reflexivity|]. exists (mkHR [] [1] 1). repeat split. constructor. }
  split; [exists 1; split; eexists; split; reflexivity|]. eexists. split; reflexivity.
Qed.

Example route_clone_alone_ex : exists st', ex_step ex_shared (CloneRoute 0 1) = Ok st' /\
  holds st' (InConn 1 0) 2 /\ points_at (views st') (InConn 1 0) = Some [1].
Proof. eexists. split; [reflexivity|]. split; [eexists; split; reflexivity|reflexivity]. Qed.

Example route_groups_ex : exists st st', ex_step ex_shared (CloneRoute 0 1) = Ok st /\ well_formed st /\
  apart (fun p => p = VRoute 1) st /\ ex_run [AddConnPoint 1 2] st = Ok st' /\
  points_at (views st') (InConn 0 0) = Some [1] /\ points_at (views st') (InConn 1 0) = Some [1; 2].
Proof.
  destruct (ex_step ex_shared (CloneRoute 0 1)) as [st| | |] eqn:E; try discriminate.
  exists st. eexists. split; [reflexivity|]. split; [eapply step_wf; [exact ex_shared_wf|exact E]|]. split.
  - intros [x|r i] q Gp Nq S; cbn in Gp; [discriminate|]. injection Gp as ->.
    apply (route_clone_alone _ _ _ _ _ _ _ _ _ i ex_shared_wf E) in S. subst q. apply Nq. reflexivity.
  - injection E as <-. split; [reflexivity|]. split; reflexivity.
Qed.

(** C286, refuted: a copy of a route is not a route of its own.  A point that is added to
    the copy is added to the original. *)
Theorem route_copy_refuted : exists (ops : list (op nat nat)) st v,
  ops = [AddConnPoint 0 1; CopyRoute 0 1; AddConnPoint 1 2] /\
  ex_run ops (st_init 0 2) = Ok st /\ ex_vrun ops (mkV [] [mkRoute [] []; mkRoute [] []]) = Ok v /\
  points_at v (InConn 0 0) = Some [1] /\ points_at (views st) (InConn 0 0) = Some [1; 2].
Proof.
  exists [AddConnPoint 0 1; CopyRoute 0 1; AddConnPoint 1 2]. eexists. eexists. split; [reflexivity|].
  split; [reflexivity|]. split; [reflexivity|]. split; reflexivity.
Qed.
Print Assumptions route_copy_refuted.

(** The route of [ex_route] has a full vector: passing its own connection is undefined.
    With a copy of the connection it is not, nor with a connection of one point. *)
(** A new vector has no memory: where the first element brings room for four, the second one does not move it. *)
Example route_own_room_ex : exists st,
  run ex_pos 0 (fun p : nat => p) (fun n => n + 4) (fun n => n) [NewRoute 0; AddConnPoint 0 1; AddSwath 0 ex_swath; AddConnOwn 0 0] (st_init 0 1) = Ok st /\
  points_at (views st) (InConn 0 1) = Some [1].
Proof. eexists. split; [vm_compute; reflexivity|reflexivity]. Qed.
Example route_own_exact_ex :
  ex_run (ex_route ++ [AddConnOwn 0 0]) (st_init 1 1) = UB /\
  (exists st, ex_run (ex_route ++ [GetConn 0 0 0; AddConnPoints 0 0]) (st_init 1 1) = Ok st /\
    points_at (views st) (InConn 0 2) = Some [1; 2]) /\
  (exists st, ex_run [AddConnPoint 0 1; AddSwath 0 ex_swath; AddConnOwn 0 0] (st_init 0 1) = Ok st /\
    points_at (views st) (InConn 0 1) = Some [1]) /\
  (exists st, ex_run [AddConnVec 0 [1; 2]; AddConnOwn 0 0] (st_init 0 1) = Ok st /\
    points_at (views st) (InConn 0 0) = Some [1; 2; 1; 2]).
Proof. split; [vm_compute; reflexivity|]. split; [|split]; eexists; (split; [vm_compute; reflexivity|reflexivity]). Qed.
