(** Theorems about bringing swaths and strips back to the earlier coordinate system (property C245). *)
From Coq Require Import Ascii String ZArith Bool Arith Lia Reals Lra List.
From Verif Require Import Outcome Num ListAux Point_Model Angle_Model Angle_Spec Angle_Proofs Swath_Model
  Container_Model Container_Spec Container_Proofs Container_Props
  Text_Model Text_Spec Text_Proofs Field_Model Field_Spec Field_Proofs Field_Props Transform_Model Transform_Spec
  Transform_Proofs Transform_Props Transform_Props2.
Import ListNotations.
Local Open Scope nat_scope.

(** C245: points of swaths are moved by the reference point of the field before they are transformed,
    points of strips are not. *)
Theorem prev_crs_objects : forall mk (wkt : pt -> pt) (f : rfield) g, generateCoordTransf mk (f_crs f) (f_prev f) = Ok g ->
  (forall s : rswath, (0 < sw_width s)%R -> exists t, swath_toPrevCRS mk wkt s f = Ok t /\ sw_id t = sw_id s /\
     sw_width t = sw_width s /\ sw_path t = map (fun p => g (wkt (plus p (f_ref f)))) (sw_path s)) /\
  (forall l : list rswath, (forall s, In s l -> (0 < sw_width s)%R) -> exists l', swaths_toPrevCRS mk wkt l f = Ok l' /\
     Forall2 (fun s t => sw_id t = sw_id s /\ sw_width t = sw_width s /\
       sw_path t = map (fun p => g (wkt (plus p (f_ref f)))) (sw_path s)) l l') /\
  (forall s : text * list (list pt), strip_toPrevCRS mk wkt s f = Ok (fst s, map (map (fun p => g (wkt p))) (snd s))) /\
  (forall l : list (text * list (list pt)), strips_toPrevCRS mk wkt l f = Ok (map (fun s => (fst s, map (map (fun p => g (wkt p))) (snd s))) l)).
Proof.
  intros mk wkt f g G. split; [|split; [|split]].
  - intros s W. destruct (proj1 (transform_swath mk wkt s f _ g G) W) as (t & E & A & B & C & _). exists t. auto.
  - intros l H. exact (proj1 (transform_many mk wkt l f _ g G) H).
  - exact (proj1 (transform_plain mk wkt _ _ g G)).
  - exact (proj1 (proj2 (transform_plain mk wkt _ _ g G))).
Qed.
Print Assumptions prev_crs_objects.

Definition back_field (x : R) : rfield :=
  mkField (txt "f") (txt "EPSG:4326") (txt "EPSG:4258") (mkPoint (N := RNum) x 0 0)%R one_cell.
Example prev_crs_objects_ex : generateCoordTransf shift_mk (f_crs (back_field 7)) (f_prev (back_field 7)) =
  Ok (fun p : pt => mkPoint (N := RNum) (px p + (4258 - 4326))%R (py p) (pz p)) /\ (0 < sw_width ex_swath)%R.
Proof. split; [reflexivity|]. cbn. lra. Qed.

(** C245: a strip of a field whose reference point is the origin is brought back like its swaths. *)
Theorem strip_back : forall mk (wkt : pt -> pt) (f : rfield) g (s : text * list (list pt)), generateCoordTransf mk (f_crs f) (f_prev f) = Ok g ->
  f_ref f = mkPoint (N := RNum) 0%R 0%R 0%R ->
  strip_toPrevCRS mk wkt s f = Ok (fst s, map (map (fun p => g (wkt (plus p (f_ref f))))) (snd s)).
Proof.
  intros mk wkt f g s G Z0. destruct (prev_crs_objects mk wkt f g G) as (_ & _ & H & _). rewrite H. do 2 f_equal.
  apply map_ext. intro r. apply map_ext. intro p. rewrite Z0. do 2 f_equal. unfold plus, p_add. destruct p as [a b c]. cbn [px py pz].
  f_equal; cbn; change (carrier RNum) with R in *; symmetry; apply Rplus_0_r.
Qed.
Print Assumptions strip_back.
Example strip_back_ex : exists r, strip_toPrevCRS shift_mk (fun p => p) (txt "a", [[mkPoint (N := RNum) 100%R 1%R 0%R]]) (back_field 0) = Ok (txt "a", [[r]]) /\ px r = 32%R.
Proof.
  rewrite (strip_back shift_mk (fun p => p) (back_field 0) (fun p : pt => mkPoint (N := RNum) (px p + (4258 - 4326))%R (py p) (pz p)) _ eq_refl eq_refl).
  eexists. split; [reflexivity|]. cbn. lra.
Qed.

(** C245: otherwise it is not: a strip and a swath with the same points in the same field end up apart. *)
Theorem strip_back_refuted : exists mk (f : rfield) (s : rswath) (c : text * list (list pt)) t c',
  In (sw_path s) (snd c) /\ swath_toPrevCRS mk (fun p => p) s f = Ok t /\ strip_toPrevCRS mk (fun p => p) c f = Ok c' /\
  length (snd c') = length (snd c) /\ forall r, In r (snd c') -> forall p q, In p r -> In q (sw_path t) -> p <> q.
Proof.
  destruct prev_crs_objects_ex as [G W]. destruct (prev_crs_objects shift_mk (fun p => p) (back_field 7) _ G) as (A & _ & B & _).
  destruct (A ex_swath W) as (t & T & _ & _ & P). pose proof (B (txt "s", [sw_path ex_swath])) as C.
  eexists shift_mk, (back_field 7), ex_swath, (txt "s", [sw_path ex_swath]), t, _.
  split; [left; reflexivity|]. split; [exact T|]. split; [exact C|]. split; [reflexivity|].
  intros r Hr p q Hp Hq E. subst q. rewrite P in Hq. cbn [snd map In] in Hr. destruct Hr as [<-|[]].
  apply in_map_iff in Hp, Hq. destruct Hp as (u & <- & Hu), Hq as (v & E & Hv). apply (f_equal (@px RNum)) in E. cbn in E.
  cbn in Hu, Hv. destruct Hu as [<-|[<-|[]]], Hv as [<-|[<-|[]]]; cbn in E; lra.
Qed.
Print Assumptions strip_back_refuted.

(** C184 is false: both systems are known, but no transformation between them can be made. *)
Theorem transform_unknown_refuted : exists mk (f : rfield) to a b, well_formed (f_cells f) /\
  createSptRef (f_crs f) false = Ok a /\ createSptRef to false = Ok b /\ mk a b = UB /\
  snd (transform_field mk (fun p => p) f to) = UB.
Proof.
  exists (fun _ _ => UB), (field_setCRS ex_field (txt "EPSG:4326")), (txt "EPSG:4258"), (SEpsg 4326), (SEpsg 4258).
  split; [exact ex_wf|]. repeat split.
Qed.
Print Assumptions transform_unknown_refuted.

(** C154: an empty path stays empty, even if the systems are unknown. *)
Theorem transform_path_empty : forall mk (f : rfield) to, transformPathWithFieldRef mk [] f to = Ok [].
Proof. reflexivity. Qed.
Print Assumptions transform_path_empty.
Example transform_path_empty_ex : transformPathWithFieldRef (fun _ _ => UB) [] (back_field 7) [] = Ok [].
Proof. apply transform_path_empty. Qed.
