(** Further theorems about the geometry containers (properties C79, C180). *)
From Coq Require Import List Arith Lia Bool Reals Lra Floats.
From Verif Require Import Outcome Num ListAux Point_Model Angle_Model Container_Model SwathGen_Model Border_Model Codec_Spec.
Import ListNotations.
Open Scope R_scope.

(** C180: getGeometry of collections gives the parts below size() and throws out_of_range
    from size() on; it is never undefined. *)
Theorem get_geometry : forall (A : Type) (isEmpty : A -> bool) (l : list A) i,
  ((exists x, In x l /\ isEmpty x = false) -> (i < length l)%nat -> exists a, nth_error l i = Some a /\ coll_getGeometry isEmpty l i = Ok a) /\
  ((length l <= i)%nat -> coll_getGeometry isEmpty l i = Throw OutOfRange).
Proof.
  intros A isEmpty l i. unfold coll_getGeometry, coll_size. split.
  - intros (x & Hx & Ex) Hi. assert (F : forallb isEmpty l = false).
    { apply Bool.not_true_is_false. intro F. rewrite forallb_forall in F. rewrite F in Ex; auto. discriminate. }
    rewrite F, (proj2 (Nat.leb_gt _ _)) by lia. unfold vec_index.
    destruct (nth_error l i) as [a|] eqn:E; [eauto|]. apply nth_error_None in E. lia.
  - intro H. destruct (forallb isEmpty l); [rewrite (proj2 (Nat.leb_le 0 i)) by lia|rewrite (proj2 (Nat.leb_le _ i)) by lia]; reflexivity.
Qed.
Print Assumptions get_geometry.

Example get_geometry_ex : (exists x, In x [[]; [1%nat]] /\ (match x with [] => true | _ => false end) = false) /\ (0 < length [[]; [1%nat]])%nat.
Proof. split; [exists [1%nat]; simpl; auto|simpl; lia]. Qed.

(** C180 fails for parts that are all empty: they are there, but cannot be read. *)
Theorem get_geometry_refuted : exists (l : mline RNum) i, (i < length l)%nat /\
  coll_getGeometry (line_isEmpty RNum) l i = Throw OutOfRange.
Proof. exists [[]; []], 0%nat. split; [simpl; lia|reflexivity]. Qed.
Print Assumptions get_geometry_refuted.

(** C79: the distance the search along a ray starts from is the largest double. *)
Theorem search_limit : is_value 0x1.fffffffffffffp+1023%float dbl_max.
Proof.
  unfold is_value. assert (E : Prim2SF 0x1.fffffffffffffp+1023%float = SpecFloat.S754_finite false 9007199254740991 971) by (vm_compute; reflexivity).
  rewrite E. cbn [sf_value]. unfold pow2, dbl_max. replace (powerRZ 2 971) with (2 ^ 971) by (rewrite pow_powerRZ; reflexivity).
  replace (2 ^ 1023) with (2 ^ 52 * 2 ^ 971) by (rewrite <- pow_add; reflexivity).
  generalize (2 ^ 971). intro y. assert (K : 2 ^ 52 = 4503599627370496) by (rewrite (pow_IZR 2 52); reflexivity).
  rewrite K. field.
Qed.
Print Assumptions search_limit.
