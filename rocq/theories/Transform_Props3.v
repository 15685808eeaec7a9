(** Further theorems about coordinate systems and transformations (properties C141, C181,
    C184). *)
From Coq Require Import Ascii String ZArith Bool Arith Lia Reals Lra List.
From Verif Require Import Outcome Num ListAux Point_Model Angle_Model Angle_Spec Angle_Proofs Swath_Model
  Container_Model Container_Spec Container_Proofs Container_Props
  Text_Model Text_Spec Text_Proofs Field_Model Field_Spec Field_Proofs Field_Props Transform_Model Transform_Spec
  Transform_Proofs Transform_Props.
Import ListNotations.
Local Open Scope nat_scope.

(** C141: "EPSG:" followed by nothing but white space, or by a sign alone, throws. *)
Theorem epsg_without_number : forall w sg,
  (forall c, In c w -> In c (map ascii_of_nat [9; 10; 11; 12; 13; 32])) -> (sg = [] \/ sg = txt "+" \/ sg = txt "-") ->
  getEPSGCoordSystem (txt "EPSG:" ++ w ++ sg) = Throw InvalidArgument.
Proof.
  intros w sg W G. unfold getEPSGCoordSystem.
  assert (I : isCoordSystemEPSG (txt "EPSG:" ++ w ++ sg) = true).
  { unfold isCoordSystemEPSG. apply find_is. exists [], (w ++ sg). reflexivity. }
  rewrite I. unfold substr. rewrite app_length, (proj2 (Nat.ltb_ge _ _)) by (cbn; lia). cbn [bind].
  change (skipn 5 (txt "EPSG:" ++ w ++ sg)) with (w ++ sg).
  assert (K : skip_spaces (w ++ sg) = sg).
  { clear I. induction w as [|c w IH]; cbn [app skip_spaces].
    - destruct G as [->|[->| ->]]; reflexivity.
    - assert (X : is_space c = true).
      { assert (C : In c (map ascii_of_nat [9; 10; 11; 12; 13; 32])) by (apply W; left; auto).
        cbn in C. repeat destruct C as [<-|C]; try reflexivity. destruct C. }
      rewrite X. apply IH. intros; apply W; right; auto. }
  unfold stoi. rewrite K. destruct G as [->|[->| ->]]; reflexivity.
Qed.
Print Assumptions epsg_without_number.

Example epsg_without_number_ex : getEPSGCoordSystem (txt "EPSG: ") = Throw InvalidArgument /\ getEPSGCoordSystem (txt "EPSG:-") = Throw InvalidArgument.
Proof. split; reflexivity. Qed.

(** C181: the zone name exists exactly for longitudes from -186 degrees on (up to the
    range of size_t); further west the conversion to size_t is undefined. *)
Theorem utm_name_defined : forall (p : pt) crs,
  ((exists t, utm_name p crs = Ok t) <-> (-186 <= px p < 6 * (IZR (2 ^ 64) - 1) - 180)%R) /\
  ((px p < -186)%R -> utm_name p crs = UB).
Proof.
  intros p crs. unfold utm_name. set (k := Int_part ((px p + 180) / 6)). cbv zeta.
  assert (B : (IZR k <= (px p + 180) / 6 < IZR k + 1)%R) by (pose proof (base_Int_part ((px p + 180) / 6)); unfold k; lra).
  assert (X : (k + 1 < 0)%Z <-> (px p < -186)%R).
  { split; intro H.
    - assert (k <= -2)%Z as H1 by lia. apply IZR_le in H1. lra.
    - assert (IZR k < -1)%R as H1 by lra. apply lt_IZR in H1. lia. }
  assert (Y : (2 ^ 64 <= k + 1)%Z <-> (6 * (IZR (2 ^ 64) - 1) - 180 <= px p)%R).
  { split; intro H.
    - apply IZR_le in H. rewrite plus_IZR in H. lra.
    - assert (IZR (2 ^ 64) < IZR (k + 2))%R as H1 by (rewrite plus_IZR; lra). apply lt_IZR in H1. lia. }
  split.
  - destruct (Z.ltb_spec (k + 1) 0) as [L|L]; cbn [orb].
    + split; [intros [t H]; discriminate|]. intro H. apply X in L. lra.
    + destruct (Z.leb_spec (2 ^ 64) (k + 1)) as [M|M].
      * split; [intros [t H]; discriminate|]. intro H. apply Y in M. lra.
      * split; [|eauto]. intros _. split.
        -- apply Rnot_lt_le. intro H. apply X in H. lia.
        -- apply Rnot_le_lt. intro H. apply Y in H. lia.
  - intro H. apply X in H. rewrite (proj2 (Z.ltb_lt _ _) H). reflexivity.
Qed.
Print Assumptions utm_name_defined.

(** C181 fails: a field given in degrees with a longitude west of -186 (as some systems
    count them) makes transformToUTM undefined. *)
Theorem to_utm_undefined_refuted : exists f : rfield, well_formed (f_cells f) /\ f_crs f = txt "EPSG:4326" /\
  forall mk wkt etrs, transformToUTM mk wkt f etrs = (f, UB).
Proof.
  exists (field_setCRS (field_setRefPoint ex_field (mkPoint (N := RNum) (-190) 10 0)%R) (txt "EPSG:4326")).
  set (f := field_setCRS _ _). split; [exact ex_wf|]. split; [reflexivity|]. intros mk wkt etrs.
  assert (U : utm_name (f_ref f) (f_crs f) = UB) by (apply (utm_name_defined (f_ref f) (f_crs f)); unfold f; cbn; lra).
  unfold transformToUTM. change (f_crs f) with (txt "EPSG:4326") in *. rewrite U. cbn. reflexivity.
Qed.
Print Assumptions to_utm_undefined_refuted.

(** C184: a transformation that GDAL cannot make is a null pointer that is used: undefined,
    after the cells have been moved. *)
Theorem transform_null : forall mk (f : rfield) to, well_formed (f_cells f) -> f_cells f <> [] ->
  generateCoordTransf mk (f_crs f) to = UB -> snd (transform_field mk (fun p => p) f to) = UB.
Proof.
  intros mk f to W N G. unfold transform_field, field_isEmpty. rewrite wf_isEmpty by exact W.
  destruct (f_cells f) as [|c cs] eqn:E; [now elim N|]. cbn [negb]. cbv zeta; cbn [f_crs field_setField]; rewrite G. reflexivity.
Qed.
Print Assumptions transform_null.

Example transform_null_ex : well_formed (f_cells ex_field) /\ f_cells ex_field <> [] /\
  generateCoordTransf (fun _ _ => UB) (txt "EPSG:4326") (txt "EPSG:1") = UB.
Proof. split; [exact ex_wf|]. split; [discriminate|reflexivity]. Qed.

(** C184: without an earlier system, transformToPrevCRS throws and changes nothing. *)
Theorem no_previous_system : forall mk wkt (f : rfield), f_prev f = [] ->
  transformToPrevCRS mk wkt f = (f, Throw InvalidArgument).
Proof. intros mk wkt f H. unfold transformToPrevCRS. rewrite H. reflexivity. Qed.
Print Assumptions no_previous_system.

Example no_previous_system_ex : transformToPrevCRS shift_mk (fun p => p) ex_field = (ex_field, Throw InvalidArgument).
Proof. apply no_previous_system. reflexivity. Qed.
