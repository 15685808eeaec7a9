(** The model run on the inputs of /repo/tests; each example is one assertion
    group of the C++ tests. *)
From Coq Require Import List Arith ZArith Bool.
From Verif Require Import Outcome Swath_Model Swath_Spec Swath_Proofs3 Swath_Props.
Import ListNotations.
Local Open Scope Z_scope.

(** tests/cpp/route_planning/snake_order_test.cpp:15-18: swath i has width and
    id i, from (0,i) to (1,i). *)
Definition test_swaths (n : nat) : list (swath zpt Z) :=
  map (fun i => let z := Z.of_nat i in mkSwath zpt Z z [(0, z); (1, z)] z true MAINLAND) (seq 1 n).
(** Widths of a result in order. *)
Definition widths (o : outcome (list (swath zpt Z))) : list Z :=
  match o with Ok r => map sw_width r | _ => [] end.

(** tests/cpp/route_planning/snake_order_test.cpp:25-28. *)
Example snake_even : widths (zgen Snake (test_swaths 10) 0) = [1;3;5;7;9;10;8;6;4;2].
Proof. vm_compute; reflexivity. Qed.
(** tests/cpp/route_planning/snake_order_test.cpp:46-49. *)
Example snake_odd :
  firstn 3 (widths (zgen Snake (test_swaths 99) 0)) = [1;3;5] /\
  last (widths (zgen Snake (test_swaths 99) 0)) 0 = 2.
Proof. split; vm_compute; reflexivity. Qed.
(** tests/cpp/route_planning/spiral_order_test.cpp:17-26. *)
Example spiral_6 : widths (zgen (Spiral 6) (test_swaths 10) 0) = [1;6;2;5;3;4;7;10;8;9].
Proof. vm_compute; reflexivity. Qed.
(** tests/cpp/route_planning/spiral_order_test.cpp:41-50. *)
Example spiral_5 : widths (zgen (Spiral 5) (test_swaths 10) 0) = [1;5;2;4;3;10;6;9;7;8].
Proof. vm_compute; reflexivity. Qed.
(** tests/cpp/route_planning/spiral_order_test.cpp:115-124. *)
Example spiral_default : widths (zgen (Spiral 2) (test_swaths 10) 0) = [1;2;3;4;5;6;7;8;9;10].
Proof. vm_compute; reflexivity. Qed.
(** tests/cpp/route_planning/custom_order_test.cpp:14-28. *)
Example custom_1 :
  widths (zgen (Custom [1;0;3;2;5;4;7;6;8;9]%nat) (test_swaths 10) 0) = [2;1;4;3;6;5;8;7;9;10].
Proof. vm_compute; reflexivity. Qed.
(** tests/cpp/route_planning/custom_order_test.cpp:71-104: three bad orders. *)
Example custom_bad :
  zgen (Custom [9;0;8;1;7;2;6;3]%nat) (test_swaths 10) 0 = Throw LengthError /\
  zgen (Custom [9;1;8;1;7;2;6;3;5;4]%nat) (test_swaths 10) 0 = Throw InvalidArgument /\
  zgen (Custom [10;0;8;1;7;2;6;3;5;4]%nat) (test_swaths 10) 0 = Throw InvalidArgument.
Proof. repeat split; vm_compute; reflexivity. Qed.

(** tests/cpp/route_planning/boustrophedon_order_test.cpp:16-18: vertical
    swaths. *)
Definition test_vertical : list (swath zpt Z) :=
  map (fun i => let z := Z.of_nat i in mkSwath zpt Z z [(z, 0); (z, 1)] z true MAINLAND)
      [3; 1; 4; 2]%nat.
(** Start height of the first swath of a result. *)
Definition first_y (o : outcome (list (swath zpt Z))) : Z :=
  match o with Ok (s :: _) => snd (swath_startPoint (0, 0) s) | _ => -1 end.
(** tests/cpp/route_planning/boustrophedon_order_test.cpp:27-52: the result of
    one call is the input of the next. *)
Example boustrophedon_variants :
  let r0 := zgen Boustrophedon test_vertical 0 in
  let r1 := do x <- r0; zgen Boustrophedon x 1 in
  let r2 := do x <- r1; zgen Boustrophedon x 2 in
  let r3 := do x <- r2; zgen Boustrophedon x 3 in
  widths r0 = [1;2;3;4] /\ first_y r0 = 0 /\ widths r1 = [4;3;2;1] /\ first_y r1 = 0 /\
  widths r2 = [1;2;3;4] /\ first_y r2 = 1 /\ widths r3 = [4;3;2;1] /\ first_y r3 = 1.
Proof. repeat split; vm_compute; reflexivity. Qed.
(** tests/cpp/route_planning/boustrophedon_order_test.cpp:55-61. *)
Example boustrophedon_empty : zgen Boustrophedon [] 0 = Ok [].
Proof. reflexivity. Qed.

(** tests/cpp/types/Swath_test.cpp:10-20. *)
Example has_same_dir :
  let s1 := mkSwath zpt Z 0 [(0, 0); (1, 1)] 1 true MAINLAND in
  match swath_clone zw_nonpos 0 (fun p => p) s1 with
  | Ok c => let s2 := swath_reverse c in
      swath_hasSameDir s1 s1 = true /\ swath_hasSameDir s1 s2 = false /\
      swath_hasSameDir s2 s1 = false /\
      swath_hasSameDir (swath_targetSameDirAs s1 s2) s2 = true /\
      sw_path (swath_targetSameDirAs s1 s2) = [(1, 1); (0, 0)]
  | _ => False
  end.
Proof. repeat split. Qed.
(** tests/cpp/types/Swath_test.cpp:90-101. *)
Example widths_checked :
  swath_of_width (P := zpt) zw_nonpos 0 0 = Throw InvalidArgument /\
  swath_of_width (P := zpt) zw_nonpos 0 (-10) = Throw InvalidArgument /\
  swath_new zw_nonpos 0 [(0, 1); (4, 1)] (-10) 0 MAINLAND = Throw InvalidArgument.
Proof. repeat split. Qed.
