(** C254.  Turning swaths. *)
From Coq Require Import List Arith ZArith Lia Bool.
From Verif Require Import Outcome Swath_Model Swath_Props.
Import ListNotations.

(** Turning a swath to the direction of another (or against it) leaves it alone when it is so
    already and reverses it otherwise: the flag says so afterwards, the same points are driven,
    in the same or the opposite order, and number, width and type are kept.  Reversing exchanges
    first and last point and twice gives the swath back. *)
Theorem swath_targeted : forall (P W : Type) (p_default : P) (s t : swath P W),
  let same := swath_targetSameDirAs s t in
  let opp := swath_targetOppositeDirAs s t in
  sw_dir same = sw_dir t /\ sw_dir opp <> sw_dir t /\
  (sw_dir s = sw_dir t -> same = s /\ sw_path opp = rev (sw_path s)) /\
  (sw_dir s <> sw_dir t -> opp = s /\ sw_path same = rev (sw_path s)) /\
  (forall r, r = same \/ r = opp \/ r = swath_reverse s -> sw_id r = sw_id s /\ sw_width r = sw_width s /\ sw_type r = sw_type s) /\
  sw_path (swath_reverse s) = rev (sw_path s) /\ sw_dir (swath_reverse s) <> sw_dir s /\
  swath_reverse (swath_reverse s) = s /\
  swath_startPoint p_default (swath_reverse s) = swath_endPoint p_default s /\
  swath_endPoint p_default (swath_reverse s) = swath_startPoint p_default s.
Proof.
  intros P W pd [id path w d ty] [id' path' w' d' ty']. unfold swath_targetSameDirAs, swath_targetOppositeDirAs, swath_hasSameDir.
  cbn [sw_dir sw_path sw_id sw_width sw_type swath_reverse].
  split; [destruct d, d'; reflexivity|]. split; [destruct d, d'; cbn; discriminate|].
  split; [intros ->; rewrite Bool.eqb_reflx; split; reflexivity|].
  split; [intro H; destruct d, d'; try congruence; split; reflexivity|].
  split; [intros r [->|[->| ->]]; destruct (Bool.eqb d' d); repeat split|].
  split; [reflexivity|]. split; [destruct d; discriminate|].
  split; [unfold swath_reverse; cbn [sw_dir sw_path sw_id sw_width sw_type]; rewrite rev_involutive, negb_involutive; reflexivity|].
  split; [reflexivity|]. unfold swath_endPoint, swath_startPoint; cbn [sw_path swath_reverse]. rewrite rev_involutive. reflexivity.
Qed.
Print Assumptions swath_targeted.

Example swath_targeted_ex :
  let s := zsw 1 (0, 1)%Z (10, 1)%Z true in let t := zsw 2 (0, 2)%Z (10, 2)%Z false in
  swath_targetSameDirAs s t = zsw 1 (10, 1)%Z (0, 1)%Z false /\ swath_targetOppositeDirAs s t = s /\
  swath_targetOppositeDirAs (zsw 1 (10, 1)%Z (0, 1)%Z false) t = s.
Proof. repeat split. Qed.
