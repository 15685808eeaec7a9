(** Further theorems about the objective functions (properties C247, C248). *)
From Coq Require Import List Arith ZArith Lia Bool Reals Lra.
From Verif Require Import Outcome ListAux Num Swath_Model Route_Model Point_Model Angle_Model.
From Verif Require Import Objective_Model Objective_Spec Objective_Proofs Objective_Proofs2 Objective_Props.
Import ListNotations.
Open Scope R_scope.

(** C247.  Costs of going between swaths and poses, for any cost between two poses: they
    start from the last point of a swath with the heading of its last segment and arrive at
    the first point with the heading of the first segment.  A swath with one point has no
    heading, and the call throws. *)
Theorem pose_costs : forall (N : Num) (P W : Type) (d : P) (angle : P -> P -> N) (cost4 : P -> N -> P -> N -> N)
  (s t : swath P W) l a b c e m p ang,
  (sw_path s = l ++ [a; b] -> rp_cost_swath_point_ang N d angle cost4 s p ang = Ok (cost4 b (angle a b) p ang)) /\
  (sw_path t = c :: e :: m -> rp_cost_point_ang_swath N d angle cost4 p ang t = Ok (cost4 p ang c (angle c e))) /\
  (sw_path s = l ++ [a; b] -> sw_path t = c :: e :: m ->
     rp_cost_swath_swath N d angle cost4 s t = Ok (cost4 b (angle a b) c (angle c e))) /\
  (sw_path s = [a] -> rp_cost_swath_point_ang N d angle cost4 s p ang = Throw OutOfRange /\
     rp_cost_point_ang_swath N d angle cost4 p ang s = Throw OutOfRange /\ rp_cost_swath_swath N d angle cost4 s t = Throw OutOfRange).
Proof.
  intros N P W d angle cost4 s t l a b c e m p ang.
  assert (E : forall s : swath P W, sw_path s = l ++ [a; b] -> rev (sw_path s) = b :: a :: rev l).
  { intros s0 ->. rewrite rev_app_distr. reflexivity. }
  split; [|split; [|split]].
  - intro H. apply E in H. unfold rp_cost_swath_point_ang, sw_getOutAngle, swath_endPoint. rewrite H. reflexivity.
  - intro H. unfold rp_cost_point_ang_swath, sw_getInAngle, swath_startPoint. rewrite H. reflexivity.
  - intros H H'. apply E in H. unfold rp_cost_swath_swath, sw_getOutAngle, sw_getInAngle, swath_endPoint, swath_startPoint. rewrite H, H'. reflexivity.
  - intro H. unfold rp_cost_swath_point_ang, rp_cost_point_ang_swath, rp_cost_swath_swath, sw_getOutAngle, sw_getInAngle. rewrite H. auto.
Qed.
Print Assumptions pose_costs.

Example pose_costs_ex : exists s t : swath nat nat, sw_path s = [7]%nat ++ [3; 4]%nat /\ sw_path t = [1; 2; 9]%nat.
Proof. exists (mkSwath nat nat 0%Z [7; 3; 4]%nat 1%nat true MAINLAND), (mkSwath nat nat 0%Z [1; 2; 9]%nat 1%nat true MAINLAND). auto. Qed.

(** C247.  Costs of going between swaths and the points of a connection: from the end of the
    last swath to the first point, and from the last point to the start of the first swath.
    Without points they cost nothing; but without swaths, arriving is undefined even then. *)
Theorem connection_costs : forall (N : Num) (P W : Type) (d : P) (angle cost2 : P -> P -> N)
  (g : list (swath P W)) (s t : swath P W) l a b c e m p q mp,
  (rp_cost_swath_mp N d angle cost2 s [] = Ok (nofZ N 0) /\ rp_cost_mp_swath N d angle cost2 [] s = Ok (nofZ N 0) /\
   rp_cost_swaths_mp N d angle cost2 g [] = Ok (nofZ N 0) /\
   rp_cost_mp_swaths N d angle cost2 [] (s :: g) = Ok (nofZ N 0)) /\
  (rp_cost_mp_swaths (W := W) N d angle cost2 mp [] = UB /\ rp_cost_swaths_mp (W := W) N d angle cost2 [] (p :: mp) = UB) /\
  (sw_path s = l ++ [a; b] -> rp_cost_swath_mp N d angle cost2 s (p :: mp) = Ok (cost2 b p) /\
     rp_cost_swaths_mp N d angle cost2 (g ++ [s]) (p :: mp) = Ok (cost2 b p)) /\
  (sw_path t = c :: e :: m -> rp_cost_mp_swath N d angle cost2 (mp ++ [q]) t = Ok (cost2 q c) /\
     rp_cost_mp_swaths N d angle cost2 (mp ++ [q]) (t :: g) = Ok (cost2 q c)).
Proof.
  intros N P W d angle cost2 g s t l a b c e m p q mp.
  split; [repeat split|]. split; [split; reflexivity|].
  assert (A : sw_path s = l ++ [a; b] -> rp_cost_swath_mp N d angle cost2 s (p :: mp) = Ok (cost2 b p)).
  { intro H. unfold rp_cost_swath_mp, rp_cost_swath_point, sw_getOutAngle, swath_endPoint. rewrite H, rev_app_distr. reflexivity. }
  assert (B : sw_path t = c :: e :: m -> rp_cost_mp_swath N d angle cost2 (mp ++ [q]) t = Ok (cost2 q c)).
  { intro H. unfold rp_cost_mp_swath. rewrite rev_app_distr. cbn [rev app]. unfold rp_cost_point_swath, sw_getInAngle, swath_startPoint. rewrite H. reflexivity. }
  split; intro H.
  - split; [auto|]. unfold rp_cost_swaths_mp, vec_back. rewrite rev_app_distr. cbn [rev app bind]. auto.
  - split; [auto|]. unfold rp_cost_mp_swaths, vec_index. cbn [nth_error bind]. auto.
Qed.
Print Assumptions connection_costs.

Example connection_costs_ex : exists s t : swath nat nat, sw_path s = [7]%nat ++ [3; 4]%nat /\ sw_path t = 1%nat :: 2%nat :: [9]%nat.
Proof. exact pose_costs_ex. Qed.

(** The estimate of the number of swaths is 0 for widths that are not positive. *)
Lemma nsm_cost_zero_width (P : Type) (edge : R -> P -> P -> R) ang w rings : w <= 0 -> nsm_cost_points RNum edge ang w rings = Ok 0.
Proof.
  intro H. unfold nsm_cost_points. change (nleb RNum w (nofZ RNum 0)) with (Rleb w 0). replace (Rleb w 0) with true.
  - destruct rings; reflexivity.
  - symmetry. apply Rleb_true. exact H.
Qed.

(** C248.  Swath objectives given one cell. *)
Section Cell.
  Context {C CS S : Type}.
  Variable cells_of : CS -> list C.
  Variable single : C -> CS.
  Variable s_length : S -> R.
  Variable cs_area : CS -> R.
  Variable covered : CS -> S -> CS.
  Variable intersects : CS -> CS -> bool.
  Variable inter : CS -> CS -> CS.
  Variable covered_area : CS -> list S -> S -> R.
  Variable nsm : R -> R -> C -> R.
  Notation by_cell k c d := (sg_cell_by_cells RNum single s_length cs_area covered intersects inter covered_area nsm k c d).
  Notation by_cells k cs d := (sg_cells_by_cells RNum cells_of s_length cs_area covered intersects inter covered_area nsm k cs d).

  Lemma foldM_sum {A} (f : A -> R) (l : list A) : forall acc : R,
    foldM (fun acc a => do x <- Ok (f a); Ok (nadd RNum acc x)) l acc = Ok (acc + rsum (map f l)).
  Proof.
    induction l as [|a l IH]; intro acc; cbn [foldM bind map rsum fold_right]; [f_equal; unfold rsum; simpl; lra|].
    rewrite IH. f_equal. unfold rsum. simpl. lra.
  Qed.

  Lemma rsum_const {A} (l : list A) v : rsum (map (fun _ => v) l) = INR (length l) * v.
  Proof. induction l as [|a l IH]; [simpl; unfold rsum; simpl; lra|]. change (v + rsum (map (fun _ => v) l) = INR (Datatypes.S (length l)) * v). rewrite IH, S_INR. lra. Qed.
  Lemma rsum_app (l m : list R) : rsum (l ++ m) = rsum l + rsum m.
  Proof. induction l as [|a l IH]; [unfold rsum; simpl; lra|]. change (a + rsum (l ++ m) = (a + rsum l) + rsum m). rewrite IH. lra. Qed.
  Lemma foldM_cong {A B} (f g : A -> B -> outcome A) l : (forall a b, f a b = g a b) -> forall a, foldM f l a = foldM g l a.
  Proof. intro H. induction l as [|b l IH]; intro a; [reflexivity|]. cbn [foldM]. rewrite H. destruct (g a b); cbn [bind]; auto. Qed.
  Lemma rsum_concat (h : S -> R) (d : list (list S)) : rsum (map (fun l => rsum (map h l)) d) = rsum (map h (concat d)).
  Proof.
    induction d as [|l d IH]; [reflexivity|]. cbn [concat]. rewrite map_app, rsum_app, <- IH. reflexivity.
  Qed.

  (** With one cell, the count and the length are the sums over all swaths, the base
      objective is zero (the modified count adds its estimate for width 0 once per swath, which
      is zero, see nsm_cost_zero_width); coverage and overlaps are those of the collection holding that
      cell; and a collection holding the cell alone gives the same as the cell, for every objective.  Only the
      modified count depends on the angle. *)
  Theorem cell_objectives : forall c (d : list (list S)),
    by_cell SGBase c d = Ok 0 /\ by_cell SGNSwath c d = Ok (INR (length (concat d))) /\
    (nsm 0 0 c = 0 -> by_cell SGNSwathModified c d = Ok (INR (length (concat d)))) /\
    by_cell SGSwathLength c d = Ok (rsum (map s_length (concat d))) /\
    (cells_of (single c) = [c] -> forall k, by_cell k c d = by_cells k (single c) d) /\
    (forall ang w, sg_angle_cell RNum nsm SGNSwathModified ang w c = nsm ang w c /\
       forall k, k <> SGNSwathModified -> sg_angle_cell RNum nsm k ang w c = 0).
  Proof.
    intros c d.
    assert (G : forall k, k = SGBase \/ k = SGNSwath \/ k = SGSwathLength \/ (k = SGNSwathModified /\ nsm 0 0 c = 0) ->
      by_cell k c d = Ok (rsum (map (sg_swath RNum s_length k) (concat d)))).
    { intros k Hk. unfold sg_cell_by_cells.
      transitivity (foldM (fun (acc : R) (l : list S) => do x <- Ok (rsum (map (sg_swath RNum s_length k) l)); Ok (nadd RNum acc x)) d (nofZ RNum 0)).
      - apply foldM_cong. intros acc l.
        assert (E : sg_cell_swaths RNum single s_length cs_area covered intersects inter covered_area nsm k c l = Ok (rsum (map (sg_swath RNum s_length k) l))); [|rewrite E; reflexivity].
        assert (Z0 : sg_cell RNum nsm k c = 0) by (destruct Hk as [->|[->|[->|[-> Hk]]]]; try reflexivity; exact Hk).
        transitivity (Ok (fold_left (fun acc s => acc + sg_swath RNum s_length k s) l 0)).
        + assert (E2 : forall a, fold_left (fun acc s => nadd RNum acc (sg_cell_swath RNum s_length nsm k c s)) l a =
            fold_left (fun acc s => acc + sg_swath RNum s_length k s) l a).
          { induction l as [|s l IHl]; intro a; [reflexivity|]. cbn [fold_left]. rewrite IHl. f_equal. unfold sg_cell_swath. rewrite Z0.
            simpl. refine (_ : @eq R _ _). ring. }
          destruct Hk as [->|[->|[->|[-> Hk]]]]; unfold sg_cell_swaths; f_equal; apply E2.
        + f_equal. rewrite (fold_acc (fun s => sg_swath RNum s_length k s)). apply Rplus_0_l.
      - rewrite foldM_sum, rsum_concat. f_equal. simpl. refine (_ : @eq R _ _). ring. }
    split; [rewrite G by auto; f_equal; change (rsum (map (fun _ : S => 0) (concat d)) = 0); rewrite (rsum_const (concat d) 0); ring|].
    split; [rewrite G by auto; f_equal; change (rsum (map (fun _ : S => 1) (concat d)) = INR (length (concat d))); rewrite (rsum_const (concat d) 1); ring|].
    split; [intro H0; rewrite G by auto 6; f_equal; change (rsum (map (fun _ : S => 1) (concat d)) = INR (length (concat d))); rewrite (rsum_const (concat d) 1); ring|].
    split; [rewrite G by auto; reflexivity|].
    split; [|intros ang w; split; [reflexivity|intros [] Hk; congruence || reflexivity]].
    intros H k. unfold sg_cell_by_cells, sg_cells_by_cells. apply foldM_cong. intros acc l.
    assert (E : sg_cells RNum cells_of nsm k (single c) = sg_cell RNum nsm k c).
    { unfold sg_cells. rewrite H. cbn [fold_left]. simpl. refine (_ : @eq R _ _). ring. }
    assert (E2 : forall a, fold_left (fun acc s => nadd RNum acc (sg_cell_swath RNum s_length nsm k c s)) l a =
            fold_left (fun acc s => nadd RNum acc (sg_cells_swath RNum cells_of s_length nsm k (single c) s)) l a).
    { induction l as [|s l IHl]; intro a; [reflexivity|]. cbn [fold_left]. rewrite IHl. unfold sg_cell_swath, sg_cells_swath. rewrite E. reflexivity. }
    destruct k; unfold sg_cell_swaths, sg_cells_swaths; try rewrite E2; reflexivity.
  Qed.
End Cell.
Print Assumptions cell_objectives.

Example cell_objectives_ex : (fun l : list nat => l) ((fun c => [c]) 5%nat) = [5%nat] /\ concat [[1; 2]; []; [4]]%nat <> [].
Proof. split; [reflexivity|discriminate]. Qed.
