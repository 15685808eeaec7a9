(** Images of collections of lines (property C249). *)
From Coq Require Import List Arith Lia Bool Reals Lra.
From Verif Require Import Outcome Num ListAux Point_Model Angle_Model Container_Model Container_Spec Container_Proofs Container_Props.
Import ListNotations.
Open Scope R_scope.

(** C249: the sum, difference or rotation of a MultiLineString (any map [f] of the points) is
    the line by line image, in order, when some line has a point; when all lines are empty
    they are dropped. *)
Theorem mline_image_exact : forall (N : Num) (f : point N -> point N) (l : mline N),
  ((exists x, In x l /\ x <> []) -> mline_image N f l = map (map f) l) /\
  ((forall x, In x l -> x = []) -> mline_image N f l = []).
Proof.
  intros N f l. unfold mline_image, coll_addGeometry. rewrite fold_snoc; cbn [app]. rewrite firstn_coll. split; intro H.
  - destruct H as (x & Hx & Nx). assert (F : forallb (line_isEmpty N) l = false).
    { apply not_true_is_false. intro F. rewrite forallb_forall in F. specialize (F x Hx). destruct x; [congruence|discriminate]. }
    rewrite F. apply map_ext. intro y. apply line_image_map.
  - assert (F : forallb (line_isEmpty N) l = true).
    { apply forallb_forall. intros x Hx. rewrite (H x Hx). reflexivity. }
    rewrite F. reflexivity.
Qed.
Print Assumptions mline_image_exact.

Example mline_image_exact_ex :
  (exists x, In x [[]; [mkPoint (N := RNum) 1 2 0]] /\ x <> []) /\ (forall x : line RNum, In x [[]; []] -> x = []).
Proof. split; [eexists; split; [right; left; reflexivity|discriminate]|]. intros x [<-|[<-|[]]]; reflexivity. Qed.
