(** Further theorems about swath generation and headlands (properties C40, C179). *)
From Coq Require Import List Arith ZArith Lia Bool Reals Lra.
From Verif Require Import Outcome Num Point_Model Angle_Model SwathGen_Model SwathGen_Props.
Import ListNotations.
Open Scope R_scope.

(** C179: a cell without points has no height and no length. *)
Theorem empty_cell_sizes : forall c : rcell, (forall r, In r c -> r = []) -> cell_getHeight c = 0 /\ cell_getMinSafeLength c = 0.
Proof.
  intros c H. assert (E : concat c = []).
  { clear - H. induction c as [|r c IH]; auto. cbn [concat]. rewrite (H r) by (left; auto). apply IH. intros; apply H; right; auto. }
  unfold cell_getHeight, cell_getMinSafeLength, env_max, env_min. rewrite E. lra.
Qed.
Print Assumptions empty_cell_sizes.

Example empty_cell_sizes_ex : cell_getMinSafeLength [[]; []] = 0.
Proof. apply empty_cell_sizes. intros r [<-|[<-|[]]]; auto. Qed.

(** C40: the area without headland of [n] swaths is what generateHeadlands leaves for a
    headland of [n] widths; it starts half a width inside the innermost ring. *)
Theorem headland_area : forall (CS : Type) (buffer : CS -> R -> CS) field w n,
  hl_generateHeadlandArea buffer field w n = hl_generateHeadlands buffer field (w * IZR n) /\
  ((1 <= n)%Z -> exists d, nth_error (hl_generateHeadlandSwaths buffer field w n true) (Z.to_nat n - 1) = Some (buffer field (- d)) /\
     hl_generateHeadlandArea buffer field w n = buffer field (- (d + w / 2))).
Proof.
  intros CS buffer field w n. unfold hl_generateHeadlandArea, hl_generateHeadlands, hl_generateHeadlandSwaths. split; [f_equal; ring|].
  intro H. exists (w * (IZR n - / 2)). split.
  - rewrite nth_error_map, (nth_error_nth' _ 0%nat) by (rewrite seq_length; lia). rewrite seq_nth by lia. cbn [option_map plus]. f_equal. f_equal.
    rewrite INR_IZR_INZ. replace (Z.of_nat (Z.to_nat n - 1)) with (n - 1)%Z by lia. rewrite minus_IZR. field.
  - f_equal. field.
Qed.
Print Assumptions headland_area.

Example headland_area_ex : hl_generateHeadlandArea (fun c d => c + d) 9 1 3 = 6.
Proof.
  destruct (headland_area R (fun c d => c + d) 9 1 3) as [_ H]. destruct H as (d & E & ->); [lia|].
  destruct (headland_rings_out2in R (fun c d => c + d) 9 1 3) as [_ H]; [lia|].
  change (Z.to_nat 3 - 1)%nat with 2%nat in E. rewrite H in E by lia. injection E as E. simpl in E. lra.
Qed.
