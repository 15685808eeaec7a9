(** Properties of paths (C42-C46 and C111-C116). *)
From Coq Require Import List Arith ZArith Lia Bool Reals Lra Psatz Floats.
From Verif Require Import Outcome ListAux Num Swath_Model Point_Model Angle_Model Angle_Spec Angle_Proofs Angle_Proofs2 Angle_Props.
From Verif Require Import Objective_Spec Objective_Proofs2 Path_Model Path_Spec Path_Proofs Path_Proofs2.
Import ListNotations.
Open Scope R_scope.

Definition demo : list rstate :=
  [mkPS (N := RNum) (mkPoint (N := RNum) 0 0 4) 0 2 1 1 1; mkPS (N := RNum) (mkPoint (N := RNum) 2 0 0) 0 3 1 2 2].

(** C42. *)
Theorem path_additive : forall p q : list rstate,
  path_append RNum false p q = Ok (p ++ q) /\
  path_length RNum (p ++ q) = path_length RNum p + path_length RNum q /\
  path_getTaskTime RNum (p ++ q) = path_getTaskTime RNum p + path_getTaskTime RNum q /\
  0 <= path_length RNum p /\
  path_length RNum [] = 0 /\ path_getTaskTime RNum [] = 0 /\
  (forall s : rstate, path_length RNum [s] = Rabs (ps_len s) /\ path_getTaskTime RNum [s] = ps_len s / ps_vel s) /\
  ((forall s : rstate, In s p -> 0 <= ps_len s /\ 0 < ps_vel s) -> 0 <= path_getTaskTime RNum p).
Proof.
  intros p q. rewrite !length_sum, !time_sum, !map_app, !rsum_app. unfold path_append. rewrite addState_fold.
  split; auto. split; auto. split; auto. split; [apply al_nonneg|]. split; [reflexivity|]. split; [reflexivity|]. split.
  - intro s. rewrite length_sum, time_sum. unfold rsum, al, tm. simpl. split; lra.
  - intro H. apply rsum_nonneg. intros x Hx. apply in_map_iff in Hx. destruct Hx as (s & <- & Hs). destruct (H s Hs).
    unfold tm. apply Rmult_le_pos; [auto|]. apply Rlt_le, Rinv_0_lt_compat. auto.
Qed.
Print Assumptions path_additive.

Example path_additive_ex : forall s : rstate, In s demo -> 0 <= ps_len s /\ 0 < ps_vel s.
Proof. intros s [<-|[<-|[]]]; simpl; lra. Qed.

(** C111: a path appended to itself iterates over a vector that grows. *)
Theorem self_append_refuted : exists p : list rstate, path_append RNum true p p = UB.
Proof. exists demo. reflexivity. Qed.
Print Assumptions self_append_refuted.

(** C43. *)
Theorem path_at_on_path : forall (p : list rstate) d, p <> [] -> let r := path_at RNum cos sin p d in
  let d' := Rmax 0 (Rmin d (path_length RNum p)) in
  exists i s, nth_error p i = Some s /\ driven p i <= d' <= driven p (S i) /\ (forall j, (j < i)%nat -> driven p (S j) < d') /\
    leads_to s (d' - driven p i) (ps_point r) /\ pz (ps_point r) = 0 /\ ps_len r = ps_len s /\ same_kind r s.
Proof.
  intros p d Hp r d'. destruct (path_additive p []) as (_ & _ & _ & HL & _).
  assert (E : r = path_at_loop RNum cos sin d' p).
  { unfold r, path_at. destruct (nltb RNum (path_length RNum p) d) eqn:C1.
    - apply Rltb_true in C1. f_equal. unfold d'. rewrite Rmin_right by lra. symmetry. apply Rmax_right. lra.
    - apply Rltb_false in C1. destruct (nltb RNum d (nofZ RNum 0)) eqn:C2.
      + apply Rltb_true in C2. simpl in C2. f_equal. change (nofZ RNum 0) with 0. unfold d'. rewrite Rmin_left by lra. symmetry. apply Rmax_left. lra.
      + apply Rltb_false in C2. simpl in C2. f_equal. unfold d'. rewrite Rmin_left by lra. symmetry. apply Rmax_right. lra. }
  rewrite E. apply at_loop_ok; auto. unfold d'. split; [apply Rmax_l|]. apply Rmax_lub; [exact HL|apply Rmin_r].
Qed.
Print Assumptions path_at_on_path.

Example path_at_on_path_ex : demo <> [] /\ 0 < 5/2 < path_length RNum demo.
Proof. split; [discriminate|]. rewrite length_sum. unfold rsum, al. simpl. rewrite !Rabs_right by lra. lra. Qed.

(** C43: both ends. *)
Theorem path_at_ends : forall (p : list rstate), p <> [] -> (forall s : rstate, In s p -> 0 < ps_len s) ->
  exists a b, nth_error p 0 = Some a /\ nth_error p (length p - 1) = Some b /\
    path_atStart RNum p = Ok (ps_point a) /\
    leads_to a 0 (ps_point (path_at RNum cos sin p 0)) /\ same_kind (path_at RNum cos sin p 0) a /\
    path_atEnd RNum cos sin p = Ok (ps_point (path_at RNum cos sin p (path_length RNum p))) /\
    leads_to b (ps_len b) (ps_point (path_at RNum cos sin p (path_length RNum p))) /\
    same_kind (path_at RNum cos sin p (path_length RNum p)) b.
Proof.
  intros p Hp Hpos. destruct (path_additive p []) as (_ & _ & _ & HL & _).
  assert (Hlen : (1 <= length p)%nat) by (destruct p; [congruence|simpl; lia]).
  destruct (nth_error p 0) as [a|] eqn:Ea; [|apply nth_error_None in Ea; lia].
  destruct (nth_error p (length p - 1)) as [b|] eqn:Eb; [|apply nth_error_None in Eb; lia].
  exists a, b. split; auto. split; auto. split.
  { unfold path_atStart, vec_index. rewrite Ea. auto. }
  assert (HP : forall i s, nth_error p i = Some s -> 0 < Rabs (ps_len s)).
  { intros i s H. apply nth_error_In in H. specialize (Hpos s H). rewrite Rabs_right; lra. }
  destruct (path_at_on_path p 0 Hp) as (i & s & H1 & H2 & H3 & H4 & H5 & H6 & H7).
  rewrite Rmin_left in * by lra. rewrite Rmax_left in * by lra.
  assert (Ei : i = 0%nat).
  { destruct i as [|i]; auto. specialize (H3 0%nat ltac:(lia)). pose proof (driven_nonneg p 1). lra. }
  subst i. rewrite Ea in H1. injection H1 as <-. rewrite driven_0, Rminus_0_r in H4. split; auto. split; auto.
  destruct (path_at_on_path p (path_length RNum p) Hp) as (k & t & K1 & K2 & K3 & K4 & K5 & K6 & K7).
  rewrite Rmin_left in * by lra. rewrite Rmax_right in * by lra.
  assert (Ek : k = (length p - 1)%nat).
  { assert (Hk : (k < length p)%nat) by (apply nth_error_Some; congruence).
    destruct (Nat.eq_dec k (length p - 1)); auto. exfalso.
    assert (D : driven p (S k) < driven p (length p)).
    { assert (G : forall m, (S k < m)%nat -> (m <= length p)%nat -> driven p (S k) < driven p m).
      { induction m as [|m IH]; intros A B; [lia|].
        destruct (nth_error p m) as [u|] eqn:Eu; [|apply nth_error_None in Eu; lia].
        rewrite (driven_S p m u Eu). specialize (HP m u Eu). destruct (Nat.eq_dec m (S k)) as [->|]; [lra|].
        specialize (IH ltac:(lia) ltac:(lia)). lra. }
      apply G; lia. }
    rewrite driven_all in D. lra. }
  rewrite Ek in *. rewrite Eb in K1. injection K1 as <-.
  assert (EL : path_length RNum p - driven p (length p - 1) = ps_len b).
  { rewrite <- driven_all. replace (length p) with (S (length p - 1)) at 1 by lia. rewrite (driven_S _ _ _ Eb).
    rewrite Rabs_right; [lra|]. apply nth_error_In in Eb. specialize (Hpos b Eb). lra. }
  rewrite EL in K4. split; auto. unfold path_atEnd, vec_back.
  destruct (exists_last Hp) as (p' & b' & Ep). 
  assert (b' = b). { rewrite Ep in Eb. rewrite app_length in Eb. simpl in Eb. rewrite nth_error_app2 in Eb by lia.
    replace (length p' + 1 - 1 - length p')%nat with 0%nat in Eb by lia. injection Eb as ->. auto. }
  subst b'. rewrite Ep at 1. rewrite rev_app_distr. cbn [rev app bind]. f_equal.
  destruct K4 as [X Y]. destruct (leads_end b) as [X' Y'].
  destruct (ps_point (path_at RNum cos sin p (path_length RNum p))) as [x y z]. cbn [px py pz] in *.
  unfold ps_atEnd, p_getPointFromAngle in *. cbn [px py] in X', Y'. rewrite X, Y, K5, <- X', <- Y'. reflexivity.
Qed.
Print Assumptions path_at_ends.

Example path_at_ends_ex : demo <> [] /\ (forall s : rstate, In s demo -> 0 < ps_len s).
Proof. split; [discriminate|]. intros s [<-|[<-|[]]]; simpl; lra. Qed.

(** C43: the height is lost, even at distance 0. *)
Theorem path_at_height_refuted : exists (p : list rstate) (a : pt),
  path_atStart RNum p = Ok a /\ ps_point (path_at RNum cos sin p 0) <> a.
Proof.
  exists demo, (mkPoint (N := RNum) 0 0 4). split; [reflexivity|].
  destruct (path_at_on_path demo 0 ltac:(discriminate)) as (i & s & _ & _ & _ & _ & H & _). intro E. rewrite E in H. simpl in H. lra.
Qed.
Print Assumptions path_at_height_refuted.

(** C44 is false: with lengths 0.1, 0.2 and 0.3 the subtractions leave more than 0.3
    for the last state, and the default state at the origin is returned. *)
Definition far : list (pstate FNum) :=
  [mkPS (N := FNum) (mkPoint (N := FNum) 100 0 0)%float 0%float 0x1.999999999999ap-4%float 1 1 1%float;
   mkPS (N := FNum) (mkPoint (N := FNum) 0x1.9066666666666p+6 0 0)%float 0%float 0x1.999999999999ap-3%float 1 1 1%float;
   mkPS (N := FNum) (mkPoint (N := FNum) 0x1.9133333333333p+6 0 0)%float 0%float 0x1.3333333333333p-2%float 1 1 1%float].

Theorem path_at_length_refuted : exists p : list (pstate FNum), forall cosf sinf : float -> float,
  cosf 0%float = 1%float -> sinf 0%float = 0%float ->
  px (ps_point (path_at FNum cosf sinf p (path_length FNum p))) = 0%float /\
  py (ps_point (path_at FNum cosf sinf p (path_length FNum p))) = 0%float /\
  exists e, path_atEnd FNum cosf sinf p = Ok e /\ PrimFloat.ltb 100 (px e) = true.
Proof.
  exists far. intros cosf sinf Hc Hs. split; [vm_compute; reflexivity|]. split; [vm_compute; reflexivity|].
  exists (ps_atEnd FNum cosf sinf (mkPS (N := FNum) (mkPoint (N := FNum) 0x1.9133333333333p+6 0 0)%float 0%float 0x1.3333333333333p-2%float 1 1 1%float)).
  split; [reflexivity|].
  change (PrimFloat.ltb 100 (0x1.9133333333333p+6 + 0x1.3333333333333p-2 * nofZ FNum 1 * cosf 0)%float = true).
  rewrite Hc. vm_compute. reflexivity.
Qed.
Print Assumptions path_at_length_refuted.

(** C45: all but the height. *)
Theorem discretize_swath_keeps : forall step (p : list rstate), step <> 0 ->
  exists parts, path_discretizeSwath step p = Ok (concat parts) /\
    Forall2 (fun s l => if (ps_type s =? 1)%Z then cut_of step s l else l = [s]) p parts /\
    path_length RNum (concat parts) = path_length RNum p /\
    path_getTaskTime RNum (concat parts) = path_getTaskTime RNum p /\
    (contiguous p -> contiguous (concat parts)).
Proof.
  intros step p H. destruct (ds_path_ok step p H) as (parts & E & F). exists parts. split; auto. split; auto.
  rewrite !length_sum, !time_sum. split; [|split].
  - clear E. induction F as [|s l p parts C F IH]; auto. cbn [concat map]. rewrite map_app, rsum_app, rsum_cons, IH. f_equal.
    destruct (ps_type s =? 1)%Z; [|subst l; unfold rsum; simpl; lra].
    apply (cut_sum step); auto. intros n Hn. unfold al. cbn [ps_len with_len]. unfold Rdiv. rewrite Rabs_mult, Rabs_inv.
    rewrite (Rabs_right (INR n)); [reflexivity|]. apply Rle_ge, pos_INR.
  - clear E. induction F as [|s l p parts C F IH]; auto. cbn [concat map]. rewrite map_app, rsum_app, rsum_cons, IH. f_equal.
    destruct (ps_type s =? 1)%Z; [|subst l; unfold rsum; simpl; lra].
    apply (cut_sum step); auto.
    + intros t (_ & _ & _ & V). unfold tm. cbn [ps_len ps_vel with_len]. rewrite V. auto.
    + intros n Hn. unfold tm. cbn [ps_len ps_vel with_len]. unfold Rdiv. ring.
  - intro C. apply (ds_contiguous step p); auto.
Qed.
Print Assumptions discretize_swath_keeps.

Example discretize_swath_keeps_ex : 1 <> 0 /\ contiguous demo.
Proof.
  split; [lra|]. intros i s t Hs Ht. destruct i as [|[|i]]; try discriminate. injection Hs as <-. injection Ht as <-.
  unfold leads_to. simpl. rewrite cos_0, sin_0. lra.
Qed.

(** C45 is false for the height: a level state at height 4 sinks towards 0. *)
Theorem discretize_swath_height_refuted : exists (s : rstate) r t,
  ps_type s = 1%Z /\ pz (ps_point s) = 4 /\ path_discretizeSwath 1 [s] = Ok r /\ In t r /\ pz (ps_point t) = 2.
Proof.
  exists (mkPS (N := RNum) (mkPoint (N := RNum) 0 0 4) 0 2 1 1 1). 
  exists (ds_states (mkPS (N := RNum) (mkPoint (N := RNum) 0 0 4) 0 2 1 1 1) 2).
  eexists. split; [reflexivity|]. split; [reflexivity|].
  cbn [path_discretizeSwath ps_type]. change (1 =? SEC_SWATH)%Z with true. cbv iota. cbn [ps_len].
  assert (E : ds_steps 2 1 = Ok 2%nat).
  { unfold ds_steps. destruct (Req_EM_T 1 0); [lra|]. replace (Int_part (Rabs (2 / 1) + / 2)) with 2%Z; [reflexivity|].
    rewrite Rabs_right by lra. symmetry. apply floor_unique. lra. }
  rewrite E. cbn [bind]. rewrite app_nil_r. split; [reflexivity|]. split; [right; left; reflexivity|].
  cbn [ps_point]. unfold p_add, p_scale, p_sub. cbn [pz]. simpl. lra.
Qed.
Print Assumptions discretize_swath_height_refuted.

(** With step 0 the loop never ends. *)
Theorem discretize_swath_zero_refuted : exists p : list rstate, path_discretizeSwath 0 p = Hang.
Proof.
  exists demo. cbn [path_discretizeSwath demo ps_type]. change (1 =? SEC_SWATH)%Z with true. cbv iota. unfold ds_steps. cbn [ps_len].
  destruct (Req_EM_T 0 0); [|congruence]. destruct (Req_EM_T 2 0); [lra|]. reflexivity.
Qed.
Print Assumptions discretize_swath_zero_refuted.

(** C46. *)
Theorem reduce_groups : forall d (p : list rstate), exists groups, p = concat groups /\
  Forall2 (fun g r => exists s ts, g = s :: ts /\ Forall (merges d s) ts /\
      ps_point r = ps_point s /\ same_kind r s /\ ps_len r = signed_length g) groups (path_reduce RNum d p) /\
  (forall i r r', nth_error (path_reduce RNum d p) i = Some r -> nth_error (path_reduce RNum d p) (S i) = Some r' -> ~ merges d r r') /\
  signed_length (path_reduce RNum d p) = signed_length p /\
  ((forall s : rstate, In s p -> 0 <= ps_len s) -> path_length RNum (path_reduce RNum d p) = path_length RNum p).
Proof.
  intros d p. destruct (reduce_ok d p) as (gs & E & F & G). exists gs. split; auto. split.
  { clear E G. induction F as [|g r gs rs (s & ts & -> & -> & H) F IH]; constructor; auto.
    exists s, ts. split; auto. split; auto. split; auto. split; [unfold same_kind; auto|]. reflexivity. }
  split; auto. split; [apply reduce_sum|]. intro H. rewrite (length_signed p) by auto. rewrite <- (reduce_sum d p). apply length_signed.
  intros r Hr. assert (Q : exists g, In g gs /\ ps_len r = signed_length g).
  { clear - F Hr. induction F as [|g r' gs rs (s & ts & -> & -> & H) F IH]; [destruct Hr|].
    destruct Hr as [<-|Hr]; [eexists; split; [left; reflexivity|reflexivity]|]. destruct (IH Hr) as (g & A & B). exists g. split; [right; auto|auto]. }
  destruct Q as (g & Hg & ->). apply rsum_nonneg. intros x Hx. apply in_map_iff in Hx. destruct Hx as (s & <- & Hs).
  apply H. rewrite E. apply in_concat. eauto.
Qed.
Print Assumptions reduce_groups.

Example reduce_groups_ex : exists s t : rstate, merges 1 s t /\ s <> t.
Proof.
  exists (mkPS (N := RNum) (mkPoint (N := RNum) 0 0 0) 0 2 1 1 1), (mkPS (N := RNum) (mkPoint (N := RNum) 0 0 0) 0 3 1 1 1). split.
  - unfold merges, dist2. simpl. split; auto. split; auto. rewrite Rminus_0_r, Rmult_0_l, Rplus_0_l, sqrt_0. lra.
  - intro H. apply (f_equal (@ps_len RNum)) in H. simpl in H. lra.
Qed.

(** C46: idempotence, for every kind of numbers (also doubles). *)
Theorem reduce_idempotent : forall (N : Num) (d : N) (p : list (pstate N)),
  path_reduce N d (path_reduce N d p) = path_reduce N d p.
Proof. exact reduce_idem. Qed.
Print Assumptions reduce_idempotent.

(** C112: motions. *)
Theorem path_motions : forall (p : list rstate) (v c : pt) a,
  Forall2 (carried (shift v)) p (path_moveTo RNum v p) /\
  Forall2 (carried (turn c a)) p (path_rotate c a p) /\
  Forall2 (carried flip_x) p (path_mirrorX p) /\
  Forall2 (carried flip_y) p (path_mirrorY p) /\
  (forall s : rstate, In s (path_rotate c a p ++ path_mirrorX p ++ path_mirrorY p) -> 0 <= ps_angle s < 2 * PI) /\
  (forall s s' : rstate, nth_error p 0 = Some s -> nth_error (path_moveTo RNum v p) 0 = Some s' -> ps_angle s' = ps_angle s /\ pz (ps_point s') = pz (ps_point s) + pz v).
Proof.
  intros p v c a.
  assert (M : forall f (g : rstate -> rstate), (forall s, carried f s (g s)) -> Forall2 (carried f) p (map g p)).
  { intros f g H. induction p; simpl; constructor; auto. }
  assert (MC : forall x, cos (mod_2pi x) = cos x /\ sin (mod_2pi x) = sin x).
  { intro x. destruct (mod_2pi_normalises x) as (_ & _ & C & _). split; [apply cos_congruent|apply sin_congruent]; auto. }
  split; [|split; [|split; [|split; [|split]]]].
  - apply M. intro s. split; [split; reflexivity|]. split; [|split; [|split; [|split]]; reflexivity].
    intros d q q' [H1 H2] [H3 H4]. unfold shift in *. cbn [fst snd] in *. unfold leads_to. cbn [ps_point ps_dir ps_angle]. unfold p_add. cbn [px py].
    rewrite H3, H4, H1, H2. simpl. split; ring.
  - apply M. intro s. split. { unfold at_xy, turn. cbn [ps_point fst snd]. unfold rotateFromPoint, p_rotateFromPoint. cbn [px py]. simpl. split; ring. }
    split; [|split; [|split; [|split]]; reflexivity].
    intros d q q' [H1 H2] [H3 H4]. unfold turn in *. cbn [fst snd] in *. unfold leads_to. cbn [ps_point ps_dir ps_angle].
    destruct (MC (ps_angle s + a)) as [-> ->]. unfold rotateFromPoint, p_rotateFromPoint. cbn [px py]. rewrite H3, H4, H1, H2, cos_plus, sin_plus. simpl. split; ring.
  - apply M. intro s. split; [split; reflexivity|]. split; [|split; [|split; [|split]]; reflexivity].
    intros d q q' [H1 H2] [H3 H4]. unfold flip_x in *. cbn [fst snd] in *. unfold leads_to. cbn [ps_point ps_dir ps_angle px py].
    destruct (MC (PI - ps_angle s)) as [-> ->]. rewrite H3, H4, H1, H2, cos_minus, sin_minus, cos_PI, sin_PI. simpl. split; ring.
  - apply M. intro s. split; [split; reflexivity|]. split; [|split; [|split; [|split]]; reflexivity].
    intros d q q' [H1 H2] [H3 H4]. unfold flip_y in *. cbn [fst snd] in *. unfold leads_to. cbn [ps_point ps_dir ps_angle px py].
    destruct (MC (- ps_angle s)) as [-> ->]. rewrite H3, H4, H1, H2, cos_neg, sin_neg. simpl. split; ring.
  - assert (MR : forall x, 0 <= mod_2pi x < 2 * PI) by (intro x; apply mod_2pi_normalises).
    intros s H. apply in_app_or in H. destruct H as [H|H]; [|apply in_app_or in H; destruct H as [H|H]];
    apply in_map_iff in H; destruct H as (s0 & <- & _); apply MR.
  - intros s s' H1 H2. destruct p as [|s0 p]; [discriminate|]. injection H1 as <-. injection H2 as <-. split; reflexivity.
Qed.
Print Assumptions path_motions.

(** C112: a moved path is as contiguous, as long and takes as long as before. *)
Theorem path_motions_keep : forall f (p q : list rstate), Forall2 (carried f) p q ->
  (contiguous p -> contiguous q) /\ path_length RNum q = path_length RNum p /\ path_getTaskTime RNum q = path_getTaskTime RNum p.
Proof.
  intros f p q F. destruct (carried_lengths f p q F) as [A B]. split; [|auto]. apply (carried_contiguous f); auto.
Qed.
Print Assumptions path_motions_keep.

Example path_motions_keep_ex : Forall2 (carried flip_x) demo (path_mirrorX demo) /\ contiguous demo.
Proof.
  split; [|apply discretize_swath_keeps_ex].
  apply (path_motions demo (mkPoint (N := RNum) 0 0 0) (mkPoint (N := RNum) 0 0 0) 0).
Qed.

(** C112.  Heights: mirrored paths keep them, moved paths are lifted with the vector, and a
    turned path loses them (it has height 0). *)
Theorem path_heights : forall (p : list rstate) (v c : pt) a,
  map (fun s : rstate => pz (ps_point s)) (path_mirrorX p) = map (fun s : rstate => pz (ps_point s)) p /\
  map (fun s : rstate => pz (ps_point s)) (path_mirrorY p) = map (fun s : rstate => pz (ps_point s)) p /\
  map (fun s : rstate => pz (ps_point s)) (path_moveTo RNum v p) = map (fun s : rstate => pz (ps_point s) + pz v) p /\
  map (fun s : rstate => pz (ps_point s)) (path_rotate c a p) = map (fun _ : rstate => 0) p.
Proof.
  intros p v c a. unfold path_mirrorX, path_mirrorY, path_moveTo, path_rotate. rewrite !map_map.
  repeat split; apply map_ext; intro s; reflexivity.
Qed.
Print Assumptions path_heights.

Example path_heights_ex : exists s : rstate, pz (ps_point s) = 3 /\ map (fun s : rstate => pz (ps_point s)) (path_rotate (mkPoint (N := RNum) 0 0 0) 0 [s]) = [0].
Proof. exists (mkPS (N := RNum) (mkPoint (N := RNum) 1 2 3) 0 2 1 1 1). split; reflexivity. Qed.

(** C113: setters, for every kind of numbers. *)
Theorem path_setters : forall (N : Num) (p : list (pstate N)) d t,
  path_set_all N (ps_with_dir N d) p = Ok (map (ps_with_dir N d) p) /\
  path_set_all N (ps_with_type N t) p = Ok (map (ps_with_type N t) p) /\
  (forall s : pstate N, let s' := ps_with_dir N d s in ps_dir s' = d /\ ps_point s' = ps_point s /\ ps_angle s' = ps_angle s /\
     ps_len s' = ps_len s /\ ps_type s' = ps_type s /\ ps_vel s' = ps_vel s) /\
  (forall s : pstate N, let s' := ps_with_type N t s in ps_type s' = t /\ ps_point s' = ps_point s /\ ps_angle s' = ps_angle s /\
     ps_len s' = ps_len s /\ ps_dir s' = ps_dir s /\ ps_vel s' = ps_vel s) /\
  (forall f i, (exists q, path_set_at N f p i = Ok q) <-> (0 <= i < Z.of_nat (length p))%Z) /\
  (forall f i q, path_set_at N f p i = Ok q -> length q = length p /\ forall j, nth_error q j =
     if (Z.of_nat j =? i)%Z then option_map f (nth_error p j) else nth_error p j).
Proof.
  intros N p d t. split; [apply set_all_ok|]. split; [apply set_all_ok|]. split; [intro s; repeat split|]. split; [intro s; repeat split|].
  split.
  - intros f i. unfold path_set_at. destruct (Z.ltb_spec i 0) as [L|L]; [split; [intros [q H]; discriminate|lia]|].
    unfold vec_index, vec_set. destruct (nth_error p (Z.to_nat i)) eqn:E; cbn [bind].
    + assert (H : (Z.to_nat i < length p)%nat) by (apply nth_error_Some; congruence). split; [lia|eauto].
    + apply nth_error_None in E. split; [intros [q H]; discriminate|lia].
  - intros f i q. unfold path_set_at. destruct (Z.ltb_spec i 0) as [L|L]; [discriminate|].
    unfold vec_index. destruct (nth_error p (Z.to_nat i)) as [s|] eqn:E; cbn [bind]; [|discriminate]. intro H.
    apply vec_set_ok in H. destruct H as (H1 & H2 & H3 & H4). split; auto. intro j. destruct (Z.eqb_spec (Z.of_nat j) i) as [<-|Hj].
    + rewrite Nat2Z.id in *. rewrite H3, E. reflexivity.
    + apply H4. lia.
Qed.
Print Assumptions path_setters.

(** C114: bounding box. *)
Theorem path_dims : forall (coord : pt -> R) (p : list rstate),
  (p = [] -> path_dim_min RNum coord p = UB /\ path_dim_max RNum coord p = UB) /\
  (p <> [] -> exists a b : rstate, In a p /\ In b p /\
     path_dim_min RNum coord p = Ok (coord (ps_point a)) /\ path_dim_max RNum coord p = Ok (coord (ps_point b)) /\
     forall s : rstate, In s p -> coord (ps_point a) <= coord (ps_point s) <= coord (ps_point b)).
Proof.
  intros coord p. split; [intros ->; split; reflexivity|]. destruct p as [|s0 p]; [congruence|]. intros _. cbn [path_dim_min path_dim_max].
  assert (A : forall (q : list rstate) (m : rstate), exists a, (a = m \/ In a q) /\
    fold_left (fun m s => if nltb RNum (coord (ps_point s)) m then coord (ps_point s) else m) q (coord (ps_point m)) = coord (ps_point a) /\
    coord (ps_point a) <= coord (ps_point m) /\ forall s, In s q -> coord (ps_point a) <= coord (ps_point s)).
  { induction q as [|u q IH]; intro m; cbn [fold_left]. { exists m. split; auto. split; auto. split; [lra|intros s []]. }
    destruct (nltb RNum (coord (ps_point u)) (coord (ps_point m))) eqn:C.
    - apply Rltb_true in C. destruct (IH u) as (a & I & E & L & H). exists a. split; [right; destruct I as [->|]; [left; auto|right; auto]|].
      split; auto. split; [lra|]. intros s [<-|Hs]; auto.
    - apply Rltb_false in C. destruct (IH m) as (a & I & E & L & H). exists a. split; [destruct I; [auto|right; right; auto]|].
      split; auto. split; auto. intros s [<-|Hs]; [lra|auto]. }
  assert (B : forall (q : list rstate) (m : rstate), exists a, (a = m \/ In a q) /\
    fold_left (fun m s => if nltb RNum m (coord (ps_point s)) then coord (ps_point s) else m) q (coord (ps_point m)) = coord (ps_point a) /\
    coord (ps_point m) <= coord (ps_point a) /\ forall s, In s q -> coord (ps_point s) <= coord (ps_point a)).
  { induction q as [|u q IH]; intro m; cbn [fold_left]. { exists m. split; auto. split; auto. split; [lra|intros s []]. }
    destruct (nltb RNum (coord (ps_point m)) (coord (ps_point u))) eqn:C.
    - apply Rltb_true in C. destruct (IH u) as (a & I & E & L & H). exists a. split; [right; destruct I as [->|]; [left; auto|right; auto]|].
      split; auto. split; [lra|]. intros s [<-|Hs]; auto.
    - apply Rltb_false in C. destruct (IH m) as (a & I & E & L & H). exists a. split; [destruct I; [auto|right; right; auto]|].
      split; auto. split; auto. intros s [<-|Hs]; [lra|auto]. }
  destruct (A p s0) as (a & A1 & A2 & A3 & A4). destruct (B p s0) as (b & B1 & B2 & B3 & B4).
  exists a, b. split; [destruct A1; [left; auto|right; auto]|]. split; [destruct B1; [left; auto|right; auto]|].
  split; [f_equal; exact A2|]. split; [f_equal; exact B2|]. intros s [<-|Hs]; auto.
Qed.
Print Assumptions path_dims.

(** The states of the demonstration path start at x = 0 and x = 2. *)
Example path_dims_ex : path_dim_max RNum (@px RNum) demo = Ok 2 /\ path_dim_min RNum (@px RNum) demo = Ok 0.
Proof.
  destruct (path_dims (@px RNum) demo) as [_ H]. destruct H as (a & b & [<-|[<-|[]]] & [<-|[<-|[]]] & E1 & E2 & M); try discriminate;
    pose proof (M _ (or_introl eq_refl)) as M1; pose proof (M _ (or_intror (or_introl eq_refl))) as M2; cbn [ps_point px] in *;
    first [rewrite E1, E2; split; reflexivity | exfalso; lra].
Qed.

(** C115: appending a swath. *)
Theorem append_swath : forall (p : list rstate) (l : list pt) speed,
  (l = [] -> path_appendSwath p l speed = Throw OutOfRange) /\
  (l <> [] -> exists r, path_appendSwath p l speed = Ok (p ++ r) /\ S (length r) = length l /\ contiguous r /\
    path_length RNum r = len p_distance l /\
    (forall i a b, nth_error l i = Some a -> nth_error l (S i) = Some b -> exists s, nth_error r i = Some s /\ ps_point s = a /\
       leads_to s (ps_len s) b /\ ps_len s = R_sqrt.sqrt (dist2 b a) /\ 0 <= ps_angle s < 2 * PI /\
       ps_dir s = 1%Z /\ ps_type s = 1%Z /\ ps_vel s = speed)).
Proof.
  intros p l speed. split; [intros ->; reflexivity|]. intro Hl. exists (swath_states speed l).
  split; [destruct l; [congruence|reflexivity]|].
  assert (D : forall a b : pt, R_sqrt.sqrt (dist2 b a) = p_distance b a) by reflexivity.
  assert (S1 : forall i a b, nth_error l i = Some a -> nth_error l (S i) = Some b -> exists s, nth_error (swath_states speed l) i = Some s /\ ps_point s = a /\
       leads_to s (ps_len s) b /\ ps_len s = R_sqrt.sqrt (dist2 b a) /\ 0 <= ps_angle s < 2 * PI /\
       ps_dir s = 1%Z /\ ps_type s = 1%Z /\ ps_vel s = speed).
  { clear Hl. induction l as [|u l IH]; intros i a b Ha Hb; [destruct i; discriminate|]. destruct l as [|w l]; [destruct i; discriminate|].
    destruct i as [|i]; [|apply IH; auto]. injection Ha as <-. injection Hb as <-. eexists. split; [reflexivity|]. split; [reflexivity|].
    cbn [ps_len ps_angle ps_dir ps_type ps_vel]. split.
    - unfold leads_to. cbn [ps_point ps_dir ps_angle]. set (v := mkPoint (N := RNum) (px w - px u) (py w - py u) 0).
      destruct (angle_polar v) as [A B]. assert (E : p_distance w u = hyp (px v) (py v)).
      { unfold p_distance, hyp, v. cbn [px py]. reflexivity. }
      rewrite E. unfold DIR_FORWARD. rewrite !Rmult_1_l, A, B. unfold v. cbn [px py]. assert (Q : forall x y : R, y = x + (y - x)) by (intros; ring). split; apply Q.
    - split; [reflexivity|]. split; [|auto]. rewrite angleFromPoint_eq. apply mod_2pi_normalises. }
  assert (L : S (length (swath_states speed l)) = length l).
  { clear S1. induction l as [|u l IH]; [congruence|]. destruct l as [|w l]; auto.
    change (S (S (length (swath_states speed (w :: l)))) = S (length (w :: l))). rewrite IH by discriminate. reflexivity. }
  split; auto. split; [|split; auto].
  - intros i s t Hs Ht. assert (Hi : (S i < length (swath_states speed l))%nat) by (apply nth_error_Some; congruence).
    destruct (nth_error l i) as [a|] eqn:Ea; [|apply nth_error_None in Ea; lia].
    destruct (nth_error l (S i)) as [b|] eqn:Eb; [|apply nth_error_None in Eb; lia].
    destruct (nth_error l (S (S i))) as [c|] eqn:Ec; [|apply nth_error_None in Ec; lia].
    destruct (S1 i a b Ea Eb) as (s1 & X1 & _ & X2 & _). destruct (S1 (S i) b c Eb Ec) as (s2 & Y1 & Y2 & _).
    rewrite X1 in Hs. injection Hs as <-. rewrite Y1 in Ht. injection Ht as <-. rewrite Y2. auto.
  - rewrite length_sum. clear S1 L. induction l as [|u l IH]; [congruence|]. destruct l as [|w l]; [reflexivity|].
    change (rsum (Rabs (p_distance w u) :: map al (swath_states speed (w :: l))) = p_distance u w + len p_distance (w :: l)).
    rewrite rsum_cons. rewrite IH by discriminate. f_equal. rewrite Rabs_right by (apply Rle_ge, sqrt_pos). unfold p_distance. f_equal. ring.
Qed.
Print Assumptions append_swath.

Example append_swath_ex : exists r, path_appendSwath demo [mkPoint (N := RNum) 0 0 0; mkPoint (N := RNum) 3 4 0] 2 = Ok (demo ++ r) /\
  path_length RNum r = 5.
Proof.
  destruct (append_swath demo [mkPoint (N := RNum) 0 0 0; mkPoint (N := RNum) 3 4 0] 2) as [_ H].
  destruct H as (r & E & _ & _ & L & _); [discriminate|]. exists r. split; [exact E|]. rewrite L. cbn [len].
  unfold p_distance. cbn [px py]. transitivity (R_sqrt.sqrt (5 * 5)); [|apply sqrt_square; lra].
  match goal with |- R_sqrt.sqrt ?a + 0 = _ => replace a with (5 * 5) by (refine (_ : @eq R _ _); cbn; ring) end. apply Rplus_0_r.
Qed.

(** C116: the polyline of a path. *)
Theorem path_to_line : forall p : list rstate,
  (p = [] -> path_toLineString RNum cos sin p = UB) /\
  (p <> [] -> exists e b, path_toLineString RNum cos sin p = Ok (map (@ps_point RNum) p ++ [e]) /\
     nth_error p (length p - 1) = Some b /\ leads_to b (ps_len b) e).
Proof.
  intro p. split; [intros ->; reflexivity|]. intro Hp. destruct (exists_last Hp) as (p' & b & ->).
  unfold path_toLineString, path_atEnd, vec_back. rewrite rev_app_distr. cbn [rev app bind].
  exists (ps_atEnd RNum cos sin b), b. split; auto. split; [|apply leads_end].
  rewrite app_length. simpl. rewrite nth_error_app2 by lia. replace (length p' + 1 - 1 - length p')%nat with 0%nat by lia. auto.
Qed.
Print Assumptions path_to_line.

Example path_to_line_ex : exists e, path_toLineString RNum cos sin demo = Ok (map (@ps_point RNum) demo ++ [e]) /\ px e = 5.
Proof.
  destruct (path_to_line demo) as [_ H]. destruct H as (e & b & E & B & X & _); [discriminate|]. exists e. split; [exact E|].
  cbn in B. injection B as <-. rewrite X. cbn. rewrite cos_0. lra.
Qed.
