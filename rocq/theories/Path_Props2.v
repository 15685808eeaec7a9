(** Properties of resampled paths (C47, C48, C117-C119). *)
From Coq Require Import List Arith ZArith Lia Bool Reals Lra Psatz.
From Verif Require Import Outcome ListAux Num Swath_Model Point_Model Angle_Model Angle_Spec Angle_Proofs Angle_Proofs2 Angle_Props.
From Verif Require Import Objective_Spec Objective_Proofs2 Spline_Model Spline_Spec SwathGen_Proofs2.
From Verif Require Import Path_Model Path_Spec Path_Proofs Path_Proofs2 Path_Proofs3.
Import ListNotations.
Open Scope R_scope.

(** The hypotheses of this file: at least three states, no negative length, some
    positive length, angles of moderate size (see C61). *)
Definition resamplable (p : list rstate) : Prop :=
  (3 <= length p)%nat /\ (forall s : rstate, In s p -> 0 <= ps_len s) /\ moving p <> [] /\
  (forall s : rstate, In s p -> Rabs (ps_angle s) + INR (length p) * PI <= 10 ^ 10).

Definition demo3 : list rstate :=
  [mkPS (N := RNum) (mkPoint (N := RNum) 0 0 4) 0 2 1 1 1; mkPS (N := RNum) (mkPoint (N := RNum) 2 0 0) 0 0 1 2 2;
   mkPS (N := RNum) (mkPoint (N := RNum) 2 0 0) 0 3 1 2 2].

Lemma demo3_ok : resamplable demo3.
Proof.
  split; [simpl; lia|]. split; [intros s [<-|[<-|[<-|[]]]]; simpl; lra|]. split.
  - unfold moving, demo3. cbn [filter ps_len]. destruct (Req_EM_T 2 0); [lra|discriminate].
  - pose proof PI_4. assert (10 <= 10 ^ 10) by (simpl; lra).
    intros s [<-|[<-|[<-|[]]]]; cbn [ps_angle length demo3]; rewrite Rabs_R0; simpl INR; simpl; lra.
Qed.

Lemma demo3_length : path_length RNum demo3 = 5.
Proof. rewrite length_sum. unfold rsum, al. simpl. rewrite Rabs_R0, !Rabs_right by lra. lra. Qed.

(** C47. *)
Theorem populate_states : forall (p : list rstate) n, resamplable p -> (0 <= n < 2147483648)%Z ->
  let step := path_length RNum p / IZR n in
  exists b r, nth_error p (length p - 1) = Some b /\ path_populate p n = Ok r /\ length r = Z.to_nat n /\
  (forall i s, nth_error r i = Some s -> let d := INR i * step in
     ps_len s = step /\ pz (ps_point s) = 0 /\ 0 <= ps_angle s < 2 * PI /\
     (exists k o, nth_error (moving p ++ [b]) k = Some o /\ ps_dir s = ps_dir o /\ ps_type s = ps_type o /\ ps_vel s = ps_vel o /\
        driven (moving p) k < d + / 10 ^ 10 /\ ((k < length (moving p))%nat -> d + / 10 ^ 10 <= driven (moving p) (S k))) /\
     (forall k o, k <> 1%nat -> nth_error (moving p) k = Some o -> d = driven (moving p) k ->
        px (ps_point s) = px (ps_point o) /\ py (ps_point s) = py (ps_point o) /\ congruent (ps_angle s) (ps_angle o))) /\
  ((1 <= n)%Z -> path_length RNum r = path_length RNum p).
Proof.
  intros p n (H1 & H2 & H3 & H4) Hn step. destruct (populate_prepare p n H1 H2 H3 H4) as (b & f & Eb & E & F & _).
  exists b. rewrite E. rewrite Z.mod_small by lia. fold step in F.
  assert (HL : 0 <= path_length RNum p) by (rewrite length_sum; apply al_nonneg).
  assert (Hs : (1 <= n)%Z -> 0 <= step). { intro H. apply Rmult_le_pos; auto. apply Rlt_le, Rinv_0_lt_compat. apply IZR_lt. lia. }
  assert (G : forall k, (k <= Z.to_nat n)%nat -> forall a, exists r, mapM f (seq a k) = Ok r /\ length r = k /\
    forall i s, nth_error r i = Some s -> pop_spec (moving p) b step (a + i) s).
  { induction k as [|k IH]; intros Hk a; [exists []; split; [reflexivity|split; [reflexivity|intros i s H; destruct i; discriminate]]|].
    cbn [seq mapM]. destruct (F a) as (s & Es & Ps). { apply Rmult_le_pos; [apply pos_INR|]. apply Hs. lia. }
    rewrite Es. cbn [bind]. destruct (IH ltac:(lia) (S a)) as (r & Er & Lr & Pr). rewrite Er. cbn [bind]. exists (s :: r).
    split; [reflexivity|]. split; [simpl; auto|]. intros [|i] u Hu; [injection Hu as <-; rewrite Nat.add_0_r; exact Ps|].
    specialize (Pr i u Hu). replace (a + S i)%nat with (S a + i)%nat by lia. exact Pr. }
  destruct (G (Z.to_nat n) (le_n _) 0%nat) as (r & Er & Lr & Pr). exists r. split; auto. split; auto. split; auto. split.
  - intros i s Hi. apply (Pr i s Hi).
  - intro H. rewrite length_sum. rewrite (rsum_const step).
    + rewrite Lr. rewrite INR_IZR_INZ, Z2Nat.id by lia. unfold step.
      assert (Q : forall L k : R, k <> 0 -> k * (L / k) = L) by (intros; field; auto). apply Q. apply not_0_IZR. lia.
    + intros s Hsr. apply In_nth_error in Hsr. destruct Hsr as [i Hi]. destruct (Pr i s Hi) as (A & _). unfold al. rewrite A.
      apply Rabs_right. apply Rle_ge, Hs, H.
Qed.
Print Assumptions populate_states.

Example populate_states_ex : resamplable demo3 /\ (0 <= 10 < 2147483648)%Z.
Proof. split; [apply demo3_ok|lia]. Qed.

(** C117: the other cases of populate. *)
Theorem populate_other : forall (p : list rstate) n,
  ((length p < 3)%nat -> path_populate p n = Ok p) /\
  ((3 <= length p)%nat -> (forall s : rstate, In s p -> ps_len s = 0) ->
     path_populate p n = Throw OutOfRange).
Proof.
  intros p n. unfold path_populate. split.
  - intro H. destruct (Nat.ltb_spec (length p) 3); [auto|lia].
  - intros H H0. destruct (Nat.ltb_spec (length p) 3); [lia|].
    destruct (exists_last (l := p)) as (p' & b & Ep); [intro E; rewrite E in H; simpl in H; lia|].
    unfold vec_back. rewrite Ep at 1. rewrite rev_app_distr. cbn [rev app bind].
    rewrite moving_eq. assert (E : moving p = []).
    { clear - H0. induction p as [|s p IH]; auto. unfold moving in *. cbn [filter]. rewrite (H0 s) by (left; auto).
      destruct (Req_EM_T 0 0); [|congruence]. apply IH. intros; apply H0; right; auto. }
    rewrite E. cbn [map app]. reflexivity.
Qed.
Print Assumptions populate_other.

Example populate_other_ex : exists p : list rstate, (3 <= length p)%nat /\ forall s : rstate, In s p -> ps_len s = 0.
Proof.
  exists (repeat (mkPS (N := RNum) (mkPoint (N := RNum) 1 2 0) 0 0 1 1 1) 3). split; [simpl; lia|].
  intros s H. apply repeat_spec in H. rewrite H. reflexivity.
Qed.

(** C118: a negative number of points becomes a huge unsigned bound, and the second
    round reads before the start of a vector. *)
Theorem populate_negative : forall (p : list rstate) n, resamplable p -> (-2147483648 <= n < 0)%Z ->
  / 10 ^ 10 <= path_length RNum p / IZR (- n) -> path_populate p n = UB.
Proof.
  intros p n (H1 & H2 & H3 & H4) Hn Hs. destruct (populate_prepare p n H1 H2 H3 H4) as (b & f & Eb & E & F & G). rewrite E.
  assert (EN : exists k, Z.to_nat (n mod 18446744073709551616) = S (S k)).
  { exists (Z.to_nat (n mod 18446744073709551616 - 2)). rewrite <- (Z_mod_plus_full n 1 18446744073709551616).
    rewrite Z.mod_small by lia. rewrite <- !Z2Nat.inj_succ by lia. f_equal. lia. }
  destruct EN as [k ->]. cbn [seq mapM]. destruct (F 0%nat) as (s & Es & _). { simpl. lra. } rewrite Es. cbn [bind].
  rewrite (G 1%nat). { reflexivity. } rewrite opp_IZR in Hs. simpl INR. rewrite Rmult_1_l.
  assert (Q : forall L k : R, k <> 0 -> L / k = - (L / - k)) by (intros; field; auto).
  rewrite (Q _ (IZR n)) by (apply not_0_IZR; lia). lra.
Qed.
Print Assumptions populate_negative.

Theorem populate_negative_refuted : exists (p : list rstate) n, path_populate p n = UB.
Proof.
  exists demo3, (-1)%Z. apply populate_negative; [apply demo3_ok|lia|]. rewrite demo3_length. simpl. lra.
Qed.
Print Assumptions populate_negative_refuted.

(** C119: what discretize does. *)
Theorem discretize_keeps_length : forall (p : list rstate) step, 0 < step -> resamplable p ->
  10 / step * path_length RNum p < 2147483648 ->
  (10 / step * path_length RNum p < 1 -> path_discretize p step = Ok []) /\
  (1 <= 10 / step * path_length RNum p -> exists r, path_discretize p step = Ok r /\ r <> [] /\
     path_length RNum r = path_length RNum p /\ signed_length r = path_length RNum p /\
     (forall i s t, nth_error r i = Some s -> nth_error r (S i) = Some t -> ~ merges step s t)).
Proof.
  intros p step Hs Hp Hb. pose proof Hp as (H1 & _). unfold path_discretize. destruct (Nat.ltb_spec 1 (length p)) as [_|C]; [|lia].
  destruct (Req_EM_T step 0); [lra|]. set (x := 10 / step * path_length RNum p) in *.
  assert (HL : 0 <= path_length RNum p) by (rewrite length_sum; apply al_nonneg).
  assert (Hx : 0 <= x). { apply Rmult_le_pos; auto. apply Rmult_le_pos; [lra|]. apply Rlt_le, Rinv_0_lt_compat. auto. }
  destruct (trunc_spec x Hx) as (T1 & T2 & T3).
  assert (T4 : (Rtrunc x < 2147483648)%Z) by (apply lt_IZR; simpl; lra).
  assert (ET : to_int (Rtrunc x) = Ok (Rtrunc x)).
  { unfold to_int. destruct (Z.leb_spec (-2147483648) (Rtrunc x)); [|lia]. destruct (Z.leb_spec (Rtrunc x) 2147483647); [reflexivity|lia]. }
  rewrite ET. cbn [bind]. destruct (populate_states p (Rtrunc x) Hp) as (b & r & _ & Er & Lr & Pr & Sr); [lia|]. rewrite Er. cbn [bind]. split.
  - intro H. assert (Rtrunc x = 0%Z). { assert (Rtrunc x < 1)%Z; [apply lt_IZR; simpl; lra|lia]. }
    rewrite H0 in Lr. destruct r; [reflexivity|discriminate].
  - intro H. assert (Hn : (1 <= Rtrunc x)%Z). { assert (0 < Rtrunc x)%Z; [apply lt_IZR; simpl; lra|lia]. }
    assert (Q : forall s : rstate, In s r -> 0 <= ps_len s).
    { intros s Is. apply In_nth_error in Is. destruct Is as [i Hi]. destruct (Pr i s Hi) as (A & _). rewrite A.
      apply Rmult_le_pos; auto. apply Rlt_le, Rinv_0_lt_compat. apply IZR_lt. lia. }
    exists (path_reduce RNum step r). split; [reflexivity|]. split.
    { destruct r as [|s r]; [simpl in Lr; lia|]. cbn [path_reduce]. rewrite reduce_from_merged. discriminate. }
    destruct (reduce_ok step r) as (gs & Eg & Fg & Gg).
    split; [|split; [|exact Gg]].
    + rewrite <- Sr by auto. rewrite (length_signed r Q), <- (reduce_sum step r). apply length_signed.
      intros u Hu. assert (X : exists g, In g gs /\ ps_len u = signed_length g).
      { clear - Fg Hu. induction Fg as [|g r' gs rs (s & ts & -> & -> & H) F IH]; [destruct Hu|].
        destruct Hu as [<-|Hu]; [eexists; split; [left; reflexivity|reflexivity]|]. destruct (IH Hu) as (g & A & B). exists g. split; [right; auto|auto]. }
      destruct X as (g & Hg & ->). apply rsum_nonneg. intros y Hy. apply in_map_iff in Hy. destruct Hy as (s & <- & Is).
      apply Q. rewrite Eg. apply in_concat. eauto.
    + rewrite reduce_sum, <- (length_signed r Q). apply Sr. auto.
Qed.
Print Assumptions discretize_keeps_length.

Example discretize_keeps_length_ex : 0 < 1 /\ resamplable demo3 /\ 1 <= 10 / 1 * path_length RNum demo3 < 2147483648.
Proof. split; [lra|]. split; [apply demo3_ok|]. rewrite demo3_length. lra. Qed.

(** C119: shorter paths, and step 0. *)
Theorem discretize_short : forall (p : list rstate) step,
  ((length p <= 1)%nat -> path_discretize p step = Ok p) /\
  ((2 <= length p)%nat -> step = 0 -> path_discretize p step = UB) /\
  (length p = 2%nat -> step <> 0 -> (-2147483648 <= Rtrunc (10 / step * path_length RNum p) <= 2147483647)%Z ->
     path_discretize p step = Ok (path_reduce RNum step p)).
Proof.
  intros p step. unfold path_discretize. split; [|split].
  - intro H. destruct (Nat.ltb_spec 1 (length p)); [lia|auto].
  - intros H ->. destruct (Nat.ltb_spec 1 (length p)); [|lia]. destruct (Req_EM_T 0 0); [auto|congruence].
  - intros H Hs Hr. destruct (Nat.ltb_spec 1 (length p)); [|lia]. destruct (Req_EM_T step 0); [congruence|].
    unfold to_int. destruct (Z.leb_spec (-2147483648) (Rtrunc (10 / step * path_length RNum p))); [|lia].
    destruct (Z.leb_spec (Rtrunc (10 / step * path_length RNum p)) 2147483647); [|lia]. cbn [andb bind].
    unfold path_populate. destruct (Nat.ltb_spec (length p) 3); [|lia]. reflexivity.
Qed.
Print Assumptions discretize_short.

Example discretize_short_ex : path_discretize (tl demo3) 1 = Ok (path_reduce RNum 1 (tl demo3)).
Proof.
  destruct (discretize_short (tl demo3) 1) as (_ & _ & H). apply H; [reflexivity|lra|].
  replace (10 / 1 * path_length RNum (tl demo3)) with (IZR 30) by (rewrite length_sum; unfold rsum, al; simpl; rewrite Rabs_R0, !Rabs_right by lra; lra).
  unfold Rtrunc. destruct (Rle_dec 0 (IZR 30)) as [_|K]; [|lra]. replace (Int_part (IZR 30)) with 30%Z by (symmetry; apply floor_unique; lra). lia.
Qed.

(** C48 is false: a path shorter than a tenth of the step disappears. *)
Theorem discretize_empties_refuted : exists (p : list rstate) step,
  p <> [] /\ 0 < step /\ 0 < path_length RNum p /\ path_discretize p step = Ok [].
Proof.
  exists demo3, 100. split; [discriminate|]. split; [lra|]. rewrite demo3_length. split; [lra|].
  apply discretize_keeps_length; [lra|apply demo3_ok| |]; rewrite demo3_length; lra.
Qed.
Print Assumptions discretize_empties_refuted.
