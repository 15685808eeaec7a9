From Coq Require Import List Arith ZArith Lia Bool Reals Lra Psatz.
From Verif Require Import Outcome ListAux Num Swath_Model Point_Model Angle_Model Angle_Spec Angle_Proofs Angle_Proofs2 Angle_Props.
From Verif Require Import Objective_Spec Objective_Proofs2 Spline_Model Spline_Spec Spline_Props SwathGen_Proofs2.
From Verif Require Import Path_Model Path_Spec Path_Proofs Path_Proofs2.
Import ListNotations.
Open Scope R_scope.

Lemma spline_total (xs ys : list R) : length xs = length ys -> (2 <= length xs)%nat ->
  increasing (fun i => nth i xs 0) (length xs) ->
  exists s, spl_make RNum xs ys false = Ok s /\ (forall t, exists v : R, spl_eval RNum s t = Ok v) /\
    forall i, (i < length xs)%nat -> i <> 1%nat -> spl_eval RNum s (nth i xs 0) = Ok (nth i ys 0).
Proof.
  intros HL Hn HI. destruct (spline_is_natural xs ys HL Hn HI) as (s & b & c & d & E & _ & E0 & E1 & E2).
  exists s. split; auto. split.
  - intro t.
    assert (G : forall m, (1 <= m)%nat -> (m < length xs)%nat -> t <= nth m xs 0 -> exists v : R, spl_eval RNum s t = Ok v).
    { induction m as [|m IH]; intros A B Ht; [lia|]. destruct m as [|m]; [eexists; apply E0; exact Ht|].
      destruct (Rle_lt_dec t (nth (S m) xs 0)) as [C|C]; [apply IH; [lia|lia|exact C]|].
      eexists. apply (E1 (S m)); [lia|lia|split; assumption]. }
    destruct (Rle_lt_dec t (nth (length xs - 1) xs 0)) as [C|C].
    + apply (G (length xs - 1)%nat); [lia|lia|exact C].
    + eexists. apply E2. exact C.
  - destruct (spline_at_knots xs ys HL Hn HI) as (s' & b' & c' & d' & E' & _ & K & _).
    rewrite E in E'. injection E' as <-. exact K.
Qed.

(** The vector of distances. *)
Lemma pop_t_length lens : forall acc, length (pop_t acc lens) = S (length lens).
Proof. induction lens as [|l lens IH]; intro acc; simpl; auto. Qed.
Lemma pop_t_nth lens : forall acc i, (i <= length lens)%nat -> nth i (pop_t acc lens) 0 = acc + rsum (firstn i lens).
Proof.
  induction lens as [|l lens IH]; intros acc i Hi.
  - simpl in Hi. replace i with 0%nat by lia. unfold rsum. simpl. lra.
  - destruct i as [|i]; [unfold rsum; simpl; lra|]. cbn [pop_t nth firstn]. rewrite IH by (simpl in Hi; lia). rewrite rsum_cons. lra.
Qed.

Lemma lower_bound_ok v t : (lower_bound v t <= length t)%nat /\ (forall i, (i < lower_bound v t)%nat -> nth i t 0 < v) /\
  ((lower_bound v t < length t)%nat -> v <= nth (lower_bound v t) t 0).
Proof.
  induction t as [|x t (A & B & C)]; cbn [lower_bound length]; [split; [lia|split; [intros; lia|lia]]|].
  destruct (Rlt_dec x v) as [H|H].
  - split; [lia|]. split; [intros [|i] Hi; [exact H|apply B; lia]|]. intro Hl. apply C. lia.
  - split; [lia|]. split; [intros; lia|]. intros _. simpl. lra.
Qed.

Lemma moving_eq p : filter (fun s : rstate => negb (Reqb (ps_len s) 0)) p = moving p.
Proof.
  unfold moving. apply filter_ext. intro s. destruct (Req_EM_T (ps_len s) 0) as [E|E].
  - replace (Reqb (ps_len s) 0) with true; auto. symmetry. apply Reqb_true. auto.
  - replace (Reqb (ps_len s) 0) with false; auto. symmetry. apply Reqb_false. auto.
Qed.

Lemma moving_pos p (s : rstate) : (forall s : rstate, In s p -> 0 <= ps_len s) -> In s (moving p) -> 0 < ps_len s.
Proof.
  intros H Hs. apply filter_In in Hs. destruct Hs as [Hs C]. specialize (H s Hs). destruct (Req_EM_T (ps_len s) 0); [discriminate|]. lra.
Qed.

Lemma moving_length p : path_length RNum (moving p) = path_length RNum p.
Proof.
  rewrite !length_sum. induction p as [|s p IH]; auto. unfold moving in *. cbn [filter map]. rewrite rsum_cons.
  destruct (Req_EM_T (ps_len s) 0) as [E|E]; [|cbn [map]; rewrite rsum_cons, IH; auto].
  rewrite IH. unfold al at 2. rewrite E, Rabs_R0. lra.
Qed.

Section Pop.
  Variable m : list rstate.
  Hypothesis Hm : m <> [].
  Hypothesis Hpos : forall s : rstate, In s m -> 0 < ps_len s.
  Let t := pop_t 0 (map (@ps_len RNum) m).

  Lemma t_len : length t = S (length m).
  Proof. unfold t. rewrite pop_t_length, map_length. auto. Qed.
  Lemma t_nth i : (i <= length m)%nat -> nth i t 0 = driven m i.
  Proof.
    intro H. unfold t. rewrite pop_t_nth by (rewrite map_length; auto). rewrite Rplus_0_l. unfold driven.
    rewrite firstn_map. f_equal. apply map_ext_in. intros s Hs. symmetry. apply Rabs_right. apply Rgt_ge, Hpos.
    rewrite <- (firstn_skipn i m). apply in_or_app. auto.
  Qed.
  Lemma t_inc : increasing (fun i => nth i t 0) (length t).
  Proof.
    intros i Hi. rewrite t_len in Hi. cbv beta. rewrite !t_nth by lia.
    destruct (nth_error m i) as [s|] eqn:E; [|apply nth_error_None in E; lia]. rewrite (driven_S _ _ _ E).
    apply nth_error_In in E. specialize (Hpos s E). rewrite Rabs_right by lra. lra.
  Qed.
  Lemma t_last : last t 0 = path_length RNum m.
  Proof.
    rewrite <- driven_all, <- t_nth by auto. pose proof t_len as L. destruct (exists_last (l := t)) as (l' & a & E); [intro E; rewrite E in L; discriminate|].
    rewrite E in *. rewrite last_last. rewrite app_length in L. simpl in L. rewrite app_nth2 by lia. replace (length m - length l')%nat with 0%nat by lia. auto.
  Qed.
End Pop.

Definition pop_spec (m : list rstate) (b : rstate) (step : R) (i : nat) (s : rstate) : Prop :=
  let d := INR i * step in
  ps_len s = step /\ pz (ps_point s) = 0 /\ 0 <= ps_angle s < 2 * PI /\
  (exists k o, nth_error (m ++ [b]) k = Some o /\ ps_dir s = ps_dir o /\ ps_type s = ps_type o /\ ps_vel s = ps_vel o /\
     driven m k < d + / 10 ^ 10 /\ ((k < length m)%nat -> d + / 10 ^ 10 <= driven m (S k))) /\
  (forall k o, k <> 1%nat -> nth_error m k = Some o -> d = driven m k ->
     px (ps_point s) = px (ps_point o) /\ py (ps_point s) = py (ps_point o) /\ congruent (ps_angle s) (ps_angle o)).

Lemma populate_prepare (p : list rstate) n : (3 <= length p)%nat -> (forall s : rstate, In s p -> 0 <= ps_len s) -> moving p <> [] ->
  (forall s : rstate, In s p -> Rabs (ps_angle s) + INR (length p) * PI <= 10 ^ 10) ->
  exists b f, nth_error p (length p - 1) = Some b /\
    path_populate p n = mapM f (seq 0 (Z.to_nat (n mod 18446744073709551616))) /\
    (forall i, 0 <= INR i * (path_length RNum p / IZR n) -> exists s, f i = Ok s /\ pop_spec (moving p) b (path_length RNum p / IZR n) i s) /\
    (forall i, INR i * (path_length RNum p / IZR n) + / 10 ^ 10 <= 0 -> f i = UB).
Proof.
  intros Hl Hn Hm Ha. set (m := moving p) in *.
  destruct (exists_last (l := p)) as (p' & b & Ep); [intro E; rewrite E in Hl; simpl in Hl; lia|].
  exists b. assert (Eb : nth_error p (length p - 1) = Some b).
  { rewrite Ep, app_length. simpl. rewrite nth_error_app2 by lia. replace (length p' + 1 - 1 - length p')%nat with 0%nat by lia. auto. }
  unfold path_populate. destruct (Nat.ltb_spec (length p) 3) as [L|_]; [lia|].
  assert (EV : vec_back p = Ok b). { unfold vec_back. rewrite Ep, rev_app_distr. reflexivity. }
  rewrite EV. cbn [bind]. rewrite moving_eq. fold m.
  assert (Hpos : forall s : rstate, In s m -> 0 < ps_len s) by (intros s Hs; apply (moving_pos p s Hn Hs)).
  assert (Lm : (length m <= length p)%nat). { unfold m, moving. clear. induction p as [|s p IH]; simpl; auto. destruct (Req_EM_T _ _); simpl; lia. }
  assert (L1 : (1 <= length m)%nat) by (destruct m; [congruence|simpl; lia]).
  set (t := pop_t 0 (map (@ps_len RNum) m)).
  assert (Lt : length t = S (length m)) by apply t_len.
  assert (It : increasing (fun i => nth i t 0) (length t)) by (apply t_inc; auto).
  set (angs := map (@ps_angle RNum) m ++ [ps_angle b]).
  assert (EA : exists rs, getAngContinuity_vec angs = Ok rs /\ Forall2 congruent rs angs).
  { unfold angs. destruct m as [|s0 m'] eqn:Em; [congruence|]. cbn [map app].
    destruct (angle_continuity_vector (ps_angle s0) (map (@ps_angle RNum) m' ++ [ps_angle b])) as (rs & E & F & _).
    - assert (I0 : In s0 p). { assert (X : In s0 (moving p)) by (fold m; rewrite Em; left; auto). apply filter_In in X. apply X. }
      specialize (Ha s0 I0). eapply Rle_trans; [|exact Ha]. apply Rplus_le_compat_l. apply Rmult_le_compat_r; [pose proof PI_RGT_0; lra|].
      apply le_INR. rewrite app_length, map_length. simpl in *. lia.
    - exists (ps_angle s0 :: rs). split; auto. constructor; auto. exists 0%Z. simpl. lra. }
  destruct EA as (rs & EA & FA). rewrite EA. cbn [bind].
  set (xs := map (fun s : rstate => px (ps_point s)) m ++ [px (ps_atEnd RNum cos sin b)]).
  set (ys := map (fun s : rstate => py (ps_point s)) m ++ [py (ps_atEnd RNum cos sin b)]).
  assert (La : length rs = length t). { rewrite (Forall2_length FA). unfold angs. rewrite app_length, map_length. simpl. lia. }
  destruct (spline_total t xs) as (sx & Ex & Tx & Kx); [unfold xs; rewrite app_length, map_length; simpl; lia|lia|exact It|].
  destruct (spline_total t ys) as (sy & Ey & Ty & Ky); [unfold ys; rewrite app_length, map_length; simpl; lia|lia|exact It|].
  destruct (spline_total t rs) as (sa & Es & Ts & Ks); [lia|lia|exact It|].
  rewrite Ex. cbn [bind]. rewrite Ey. cbn [bind]. rewrite Es. cbn [bind].
  assert (TL : last t 0 = path_length RNum p). { unfold t. rewrite t_last by auto. apply moving_length. }
  rewrite TL. set (step := path_length RNum p / IZR n).
  exists (pop_state sx sy sa t (m ++ [b]) step). split; auto. split; auto.
  assert (E10 : / 10000000000 = / 10 ^ 10) by (f_equal; lra).
  split; intros i Hi; unfold pop_state; fold step in Hi; destruct (Tx (INR i * step)) as [vx Vx]; destruct (Ty (INR i * step)) as [vy Vy];
    destruct (Ts (INR i * step)) as [va Va]; rewrite Vx; cbn [bind]; rewrite Vy; cbn [bind]; rewrite Va; cbn [bind]; rewrite E10;
    destruct (lower_bound_ok (INR i * step + / 10 ^ 10) t) as (B1 & B2 & B3).
  - assert (T0 : nth 0 t 0 = 0). { unfold t. rewrite t_nth by (auto; lia). reflexivity. }
    assert (P10 : 0 < / 10 ^ 10) by (apply Rinv_0_lt_compat; lra).
    destruct (lower_bound (INR i * step + / 10 ^ 10) t) as [|k]; [specialize (B3 ltac:(lia)); lra|].
    destruct (nth_error (m ++ [b]) k) as [o|] eqn:Eo; [|apply nth_error_None in Eo; rewrite app_length in Eo; simpl in Eo; lia].
    unfold vec_index. rewrite Eo. cbn [bind]. eexists. split; [reflexivity|]. unfold pop_spec.
    cbn [ps_len ps_point pz px py ps_angle ps_dir ps_type ps_vel].
    split; [reflexivity|]. split; [reflexivity|]. split; [apply mod_2pi_normalises|]. split.
    + exists k, o. split; auto. split; auto. split; auto. split; auto. split.
      * specialize (B2 k ltac:(lia)). unfold t in B2. rewrite t_nth in B2 by (auto; lia). exact B2.
      * intro Hk. specialize (B3 ltac:(lia)). unfold t in B3. rewrite t_nth in B3 by (auto; lia). exact B3.
    + intros k' o' Hk' Ho' Hd. assert (Lk : (k' < length m)%nat) by (apply nth_error_Some; congruence).
      assert (Td : nth k' t 0 = INR i * step). { unfold t. rewrite t_nth by (auto; lia). auto. }
      specialize (Kx k' ltac:(lia) Hk'). specialize (Ky k' ltac:(lia) Hk'). specialize (Ks k' ltac:(lia) Hk').
      rewrite Td in Kx, Ky, Ks. rewrite Vx in Kx. rewrite Vy in Ky. rewrite Va in Ks. injection Kx as ->. injection Ky as ->. injection Ks as ->.
      split; [|split].
      * unfold xs. rewrite app_nth1 by (rewrite map_length; auto). apply nth_error_nth. rewrite nth_error_map, Ho'. reflexivity.
      * unfold ys. rewrite app_nth1 by (rewrite map_length; auto). apply nth_error_nth. rewrite nth_error_map, Ho'. reflexivity.
      * destruct (mod_2pi_normalises (nth k' rs 0)) as (_ & _ & C & _). eapply congruent_trans; [exact C|].
        apply Forall2_nth_error in FA. destruct FA as [_ FA]. apply (FA k').
        -- apply nth_error_nth'. lia.
        -- unfold angs. rewrite nth_error_app1 by (rewrite map_length; auto). rewrite nth_error_map, Ho'. reflexivity.
  - assert (T0 : nth 0 t 0 = 0). { unfold t. rewrite t_nth by (auto; lia). reflexivity. }
    destruct (lower_bound (INR i * step + / 10 ^ 10) t) as [|k]; [reflexivity|]. specialize (B2 0%nat ltac:(lia)). lra.
Qed.
