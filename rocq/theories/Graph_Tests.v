(** Conformance: tests/cpp/types/Graph_test.cpp replayed on the model. *)
From Coq Require Import List Arith ZArith.
From Verif Require Import Outcome Graph_Model Graph_Proofs4.
Import ListNotations.

(** tests/cpp/types/Graph_test.cpp:10-21. *)
Example addEdges_test :
  match run_ops [OAddDirected 1 4 1; OAddDirected 1 2 2; OAdd 2 3 6; OAdd 3 1 6; OAdd 4 1 6] with
  | Ok g => numNodes (g_edges g) = 4 /\ numEdges (g_edges g) = 7
  | _ => False
  end.
Proof. split; reflexivity. Qed.

(** tests/cpp/types/Graph_test.cpp:23-36: the test calls allPathsBetween with ids
    1..4 on a graph of four nodes, so visited[4] is one past the end: the test
    itself runs into undefined behaviour. *)
Example allPathsBetween_test :
  match run_ops [OAddDirected 1 4 1; OAddDirected 1 3 2; OAdd 3 2 6; OAdd 2 1 6; OAdd 4 1 6] with
  | Ok g => allPathsBetween (map fst) (g_edges g) 4 2 = UB
  | _ => False
  end.
Proof. reflexivity. Qed.

(** The same graph with ids 0..3 gives the two paths the test expects. *)
Example allPathsBetween_shifted :
  match run_ops [OAddDirected 0 3 1; OAddDirected 0 2 2; OAdd 2 1 6; OAdd 1 0 6; OAdd 3 0 6] with
  | Ok g => allPathsBetween (map fst) (g_edges g) 3 1 = Ok [[3; 0; 2; 1]; [3; 0; 1]]
  | _ => False
  end.
Proof. reflexivity. Qed.

(** tests/cpp/types/Graph_test.cpp:54-108. *)
Example shortestPaths_test :
  match run_ops [OAdd 0 1 6; OAddDirected 2 3 1; OAddDirected 0 2 2; OAdd 2 1 20; OAdd 3 0 5; OPaths] with
  | Ok g =>
      match answer (getPaths g), answer (getCosts g) with
      | Ok p, Ok c =>
          length p = 4 /\ nth 1 (nth 0 p []) [] = [0; 1] /\ nth 3 (nth 0 p []) [] = [0; 2; 3] /\
          nth 1 (nth 0 c []) 0%Z = 6%Z /\ nth 3 (nth 0 c []) 0%Z = 3%Z
      | _, _ => False
      end
  | _ => False
  end.
Proof. vm_compute. repeat split. Qed.
Example shortestPaths_far_test :
  match run_ops [OAdd 0 1 6; OAddDirected 2 3 1; OAddDirected 0 2 2; OAdd 2 1 20; OAdd 3 0 5; OPaths;
                 OAdd 4 5 3; ORecompute INF_default; OPaths] with
  | Ok g =>
      match answer (getPaths g), answer (getCosts g) with
      | Ok p, Ok c =>
          length p = 6 /\ nth 4 (nth 5 c []) 0%Z = 3%Z /\ nth 5 (nth 0 c []) 0%Z = INF_default
      | _, _ => False
      end
  | _ => False
  end.
Proof. vm_compute. repeat split. Qed.
