(** Reading and writing the states of a path by index (property C113). *)
From Coq Require Import List Arith ZArith Lia Reals.
From Verif Require Import Outcome ListAux Num Point_Model Angle_Model Path_Model Path_Spec Path_Props.
Import ListNotations.
Open Scope R_scope.

(** C113: setState changes one state and no other, and getState reads it back; past
    the end both are undefined. *)
Theorem path_states_by_index : forall (N : Num) (p : list (pstate N)) i s,
  ((i < length p)%nat -> exists q, path_setState N p i s = Ok q /\ length q = length p /\
     forall j, path_getState N q j = if Nat.eqb j i then Ok s else path_getState N p j) /\
  ((length p <= i)%nat -> path_setState N p i s = UB /\ path_getState N p i = UB).
Proof.
  intros N p i s. unfold path_setState, path_getState, vec_set, vec_index. split; intro H.
  - destruct (nth_error p i) as [x|] eqn:E; [|apply nth_error_None in E; lia].
    assert (L : length (firstn i p) = i) by (apply firstn_length_le; lia).
    eexists. split; [reflexivity|]. split.
    + rewrite app_length, L. cbn [length]. rewrite skipn_length. lia.
    + intro j. destruct (Nat.eqb_spec j i) as [->|Hj].
      * rewrite nth_error_app2, L, Nat.sub_diag by lia. reflexivity.
      * destruct (Nat.lt_ge_cases j i) as [Hl|Hl].
        -- rewrite nth_error_app1 by lia. rewrite <- (firstn_skipn i p) at 2. rewrite nth_error_app1 by lia. reflexivity.
        -- rewrite nth_error_app2, L by lia. destruct (j - i)%nat as [|k] eqn:K; [lia|]. cbn [nth_error].
           rewrite <- (firstn_skipn (S i) p) at 2. rewrite nth_error_app2; rewrite firstn_length_le by lia; [|lia].
           replace (j - S i)%nat with k by lia. reflexivity.
  - rewrite (proj2 (nth_error_None p i)) by lia. auto.
Qed.
Print Assumptions path_states_by_index.

Example path_states_by_index_ex : (1 < length demo)%nat /\ (length demo <= 2)%nat.
Proof. cbn. lia. Qed.
