From Coq Require Import List Arith ZArith Lia Bool Reals Lra Psatz.
From Verif Require Import Outcome ListAux Num Swath_Model Point_Model Angle_Model Angle_Spec Angle_Proofs Angle_Proofs2 Angle_Props.
From Verif Require Import Objective_Spec Objective_Proofs2 Path_Model Path_Spec Path_Proofs.
Import ListNotations.
Open Scope R_scope.

Lemma leads_end (s : rstate) : leads_to s (ps_len s) (ps_atEnd RNum cos sin s).
Proof. unfold leads_to, ps_atEnd, p_getPointFromAngle. cbn [px py]. simpl. split; ring. Qed.

Lemma rsum_const (c : R) {A} (f : A -> R) l : (forall a, In a l -> f a = c) -> rsum (map f l) = INR (length l) * c.
Proof.
  induction l as [|a l IH]; intro H; [unfold rsum; simpl; lra|].
  cbn [map]. rewrite rsum_cons, IH by (intros; apply H; right; auto). rewrite H by (left; auto).
  change (length (a :: l)) with (S (length l)). rewrite S_INR. lra.
Qed.

(** Path::discretizeSwath. *)
Lemma steps_ok len step : step <> 0 -> exists n, ds_steps len step = Ok n /\ (1 <= n)%nat /\
  Rabs (len / INR n) <= 3 / 2 * Rabs step /\ ((2 <= n)%nat -> 3 / 4 * Rabs step <= Rabs (len / INR n)).
Proof.
  intro H. unfold ds_steps. destruct (Req_EM_T step 0) as [Z0|_]; [congruence|]. set (x := Rabs (len / step)).
  set (k := Int_part (x + / 2)). exists (Nat.max 1 (Z.to_nat k)). split; auto.
  assert (Hx : 0 <= x) by apply Rabs_pos. assert (Hs : 0 < Rabs step) by (apply Rabs_pos_lt; auto).
  destruct (base_Int_part (x + / 2)) as [B1 B2]. fold k in B1, B2.
  assert (Hk : (0 <= k)%Z). { assert (-1 < k)%Z; [apply lt_IZR; lra|lia]. }
  set (n := Nat.max 1 (Z.to_nat k)). assert (Hn : (1 <= n)%nat) by (unfold n; lia). split; auto.
  assert (Rn : 1 <= INR n) by (apply (le_INR 1); auto).
  assert (E : Rabs (len / INR n) = x / INR n * Rabs step).
  { unfold x, Rdiv. rewrite !Rabs_mult, !Rabs_inv. rewrite (Rabs_right (INR n)) by lra. field. lra. }
  rewrite E. assert (Kn : IZR k <= INR n). { rewrite INR_IZR_INZ. apply IZR_le. unfold n. lia. }
  split.
  - apply Rmult_le_compat_r; [lra|]. apply (Rmult_le_reg_r (INR n)); [lra|]. unfold Rdiv. rewrite Rmult_assoc, Rinv_l by lra. lra.
  - intro H2. assert (En : INR n = IZR k). { rewrite INR_IZR_INZ. f_equal. unfold n in *. lia. }
    apply Rmult_le_compat_r; [lra|]. apply (Rmult_le_reg_r (INR n)); [lra|]. unfold Rdiv at 2. rewrite Rmult_assoc, Rinv_l by lra.
    assert (2 <= INR n) by (apply (le_INR 2); auto). lra.
Qed.

Lemma ds_nth (s : rstate) n j : (j < n)%nat -> nth_error (ds_states s n) j =
  Some (mkPS (N := RNum) (p_add RNum (ps_point s) (p_scale RNum (p_sub RNum (ps_atEnd RNum cos sin s) (ps_point s)) (INR j / INR n)))
    (ps_angle s) (ps_len s / INR n) (ps_dir s) (ps_type s) (ps_vel s)).
Proof.
  intro H. unfold ds_states. rewrite nth_error_map. rewrite (nth_error_nth' _ 0%nat) by (rewrite seq_length; auto).
  rewrite seq_nth by auto. reflexivity.
Qed.

Lemma ds_cut (s : rstate) n step : (1 <= n)%nat -> Rabs (ps_len s / INR n) <= 3 / 2 * Rabs step ->
  ((2 <= n)%nat -> 3 / 4 * Rabs step <= Rabs (ps_len s / INR n)) -> cut_of step s (ds_states s n).
Proof.
  intros Hn H1 H2. assert (L : length (ds_states s n) = n) by (unfold ds_states; rewrite map_length, seq_length; auto).
  assert (Rn : 1 <= INR n) by (apply (le_INR 1); auto).
  assert (A : forall t, In t (ds_states s n) -> same_kind t s /\ ps_len t = ps_len s / INR n).
  { intros t H. apply in_map_iff in H. destruct H as (j & <- & _). split; [unfold same_kind; auto|reflexivity]. }
  split; [|split; [|split; [|split]]].
  - destruct (ds_states s n) as [|t r] eqn:E; [simpl in L; lia|]. exists t, r. split; auto.
    assert (N0 : nth_error (ds_states s n) 0 = Some t) by (rewrite E; auto). rewrite ds_nth in N0 by lia. injection N0 as <-.
    cbn [ps_point]. destruct (ps_point s) as [x y z]. unfold p_add, p_scale. cbn [px py pz]. simpl. f_equal; unfold Rdiv; ring.
  - intros t H. destruct (A t H) as [A1 A2]. rewrite L, A2. split; [auto|]. split; [reflexivity|auto].
  - intros Hl t H. destruct (A t H) as [_ A2]. rewrite A2. apply H2. lia.
  - intros i a b Ha Hb. assert (Hi : (S i < n)%nat) by (rewrite <- L; apply nth_error_Some; congruence).
    rewrite ds_nth in Ha by lia. rewrite ds_nth in Hb by lia. rewrite S_INR in Hb. injection Ha as <-. injection Hb as <-.
    unfold leads_to. cbn [ps_point ps_angle ps_len ps_dir]. unfold p_add, p_scale, p_sub, ps_atEnd, p_getPointFromAngle. cbn [px py pz].
    simpl. split; field; lra.
  - intros q [Q1 Q2]. assert (E : nth_error (ds_states s n) (n - 1) = Some (last (ds_states s n) s)).
    { clear - L Hn. destruct (exists_last (l := ds_states s n)) as (l' & a & E); [intro E; rewrite E in L; simpl in L; lia|].
      rewrite E in *. rewrite last_last, nth_error_app2; rewrite app_length in L; simpl in L; [|lia].
      replace (n - 1 - length l')%nat with 0%nat by lia. auto. }
    rewrite ds_nth in E by lia. rewrite minus_INR in E by auto. injection E as E. rewrite <- E. unfold leads_to in *. rewrite Q1, Q2.
    cbn [ps_point ps_angle ps_len ps_dir]. unfold p_add, p_scale, p_sub, ps_atEnd, p_getPointFromAngle. cbn [px py pz].
    simpl. split; field; lra.
Qed.

Lemma ds_path_ok step p : step <> 0 -> exists parts, path_discretizeSwath step p = Ok (concat parts) /\
  Forall2 (fun s l => if (ps_type s =? 1)%Z then cut_of step s l else l = [s]) p parts.
Proof.
  intro H. induction p as [|s p (parts & E & F)]; [exists []; auto|]. cbn [path_discretizeSwath]. rewrite E. unfold SEC_SWATH.
  destruct (Z.eqb (ps_type s) 1) eqn:C.
  - destruct (steps_ok (ps_len s) step H) as (n & En & Hn & H1 & H2). rewrite En. cbn [bind].
    exists (ds_states s n :: parts). split; auto. constructor; auto. rewrite C. apply ds_cut; auto.
  - cbn [bind]. exists ([s] :: parts). split; auto. constructor; auto. rewrite C. auto.
Qed.

Lemma cut_sum step s l (f : rstate -> R) : cut_of step s l ->
  (forall t, same_kind t s -> f t = f (with_len (N := RNum) s (ps_len t))) ->
  (forall n, (1 <= n)%nat -> f (with_len (N := RNum) s (ps_len s / INR n)) = f s / INR n) -> rsum (map f l) = f s.
Proof.
  intros ((t0 & r & El & _) & C2 & _) Hf1 Hf2.
  assert (Hl : (1 <= length l)%nat) by (rewrite El; simpl; lia).
  rewrite (rsum_const (f s / INR (length l))).
  - assert (1 <= INR (length l)) by (apply (le_INR 1); auto). field. lra.
  - intros t Ht. destruct (C2 t Ht) as (K & E & _). rewrite (Hf1 t K), E. apply Hf2. auto.
Qed.

Lemma contig_app l1 l2 : contiguous l1 -> contiguous l2 ->
  (forall d t, l1 <> [] -> nth_error l2 0 = Some t -> leads_to (last l1 d) (ps_len (last l1 d)) (ps_point t)) -> contiguous (l1 ++ l2).
Proof.
  intros H1 H2 H i s t Hs Ht.
  destruct (lt_dec (S i) (length l1)) as [L|L].
  - rewrite nth_error_app1 in Hs, Ht by lia. eapply H1; eauto.
  - destruct (Nat.eq_dec (S i) (length l1)) as [E|E].
    + rewrite nth_error_app1 in Hs by lia. rewrite nth_error_app2, E, Nat.sub_diag in Ht by lia.
      destruct (exists_last (l := l1)) as (l' & a & El); [intro X; rewrite X in E; simpl in E; lia|].
      specialize (H s t). rewrite El, last_last in H. rewrite El in Hs, E. rewrite app_length in E. simpl in E.
      rewrite nth_error_app2 in Hs by lia. replace (i - length l')%nat with 0%nat in Hs by lia. injection Hs as <-.
      apply H; auto. intro X. apply app_eq_nil in X. destruct X. discriminate.
    + rewrite nth_error_app2 in Hs, Ht by lia. replace (S i - length l1)%nat with (S (i - length l1)) in Ht by lia. eapply H2; eauto.
Qed.

Lemma contig_tail s p : contiguous (s :: p) -> contiguous p.
Proof. intros H i a b Ha Hb. apply (H (S i)); auto. Qed.

Lemma ds_contiguous step p parts : Forall2 (fun s l => if (ps_type s =? 1)%Z then cut_of step s l else l = [s]) p parts ->
  contiguous p -> contiguous (concat parts) /\
  (forall t, nth_error (concat parts) 0 = Some t -> exists s p', p = s :: p' /\ ps_point t = ps_point s).
Proof.
  induction 1 as [|s l p parts H F IH]; intro C.
  - split; [intros i a b Ha; destruct i; discriminate|intros t Ht; discriminate].
  - destruct (IH (contig_tail _ _ C)) as [IH1 IH2]. cbn [concat].
    assert (G : contiguous l /\ (exists t r, l = t :: r /\ ps_point t = ps_point s) /\
      forall d q, leads_to s (ps_len s) q -> leads_to (last l d) (ps_len (last l d)) q).
    { destruct (ps_type s =? 1)%Z.
      - destruct H as (A & _ & _ & B & D). split; auto. split; auto. intros d q Q. specialize (D q Q).
        destruct A as (t & r & -> & _). replace (last (t :: r) d) with (last (t :: r) s); auto.
        clear. revert t. induction r as [|u r IH]; intro t; auto. apply (IH u).
      - subst l. split; [intros i a b Ha Hb; destruct i as [|[|i]]; discriminate|]. split; [eauto|]. auto. }
    destruct G as (G1 & (t0 & r & -> & G2) & G3). split.
    + apply contig_app; auto. intros d t _ Ht. destruct (IH2 t Ht) as (s' & p' & -> & ->). apply G3. apply (C 0%nat); auto.
    + intros t Ht. injection Ht as <-. eauto.
Qed.

(** Path::reduce. *)
Lemma same_merges d (s t : rstate) : path_same RNum d s t = true <-> merges d s t.
Proof.
  unfold path_same, merges. rewrite !andb_true_iff, !Z.eqb_eq. split.
  - intros [[A B] C]. apply Rltb_true in C. unfold pt_distance in C. auto.
  - intros (A & B & C). split; auto. apply Rltb_true. exact C.
Qed.

Lemma reduce_ok d p : exists groups, p = concat groups /\
  Forall2 (fun g r => exists s ts, g = s :: ts /\ r = with_len (N := RNum) s (signed_length g) /\ Forall (merges d s) ts)
    groups (path_reduce RNum d p) /\
  forall i r r', nth_error (path_reduce RNum d p) i = Some r -> nth_error (path_reduce RNum d p) (S i) = Some r' -> ~ merges d r r'.
Proof.
  apply (reduce_ind RNum d (fun p red => exists groups, p = concat groups /\
  Forall2 (fun g r => exists s ts, g = s :: ts /\ r = with_len (N := RNum) s (signed_length g) /\ Forall (merges d s) ts) groups red /\
  forall i r r', nth_error red i = Some r -> nth_error red (S i) = Some r' -> ~ merges d r r')).
  - exists []. split; auto. split; auto. intros i r r' H. destruct i; discriminate.
  - intros s q (gs & E & F & G). destruct (merged_ok RNum d s q) as (M1 & M2 & M3 & _).
    exists ((s :: fst (merged RNum d s q)) :: gs). split; [|split].
    + cbn [concat]. rewrite <- E. cbn [app]. rewrite M1. auto.
    + constructor; auto. exists s, (fst (merged RNum d s q)). split; auto. split.
      * f_equal. rewrite sum_fold. unfold signed_length. cbn [map]. rewrite rsum_cons. reflexivity.
      * eapply Forall_impl; [|exact M2]. intros t Ht. apply same_merges, Ht.
    + intros i r r' H1 H2. destruct i as [|i].
      * injection H1 as <-. cbn [nth_error] in H2. destruct (path_reduce RNum d (snd (merged RNum d s q))) as [|x l] eqn:E2; [discriminate|].
        injection H2 as <-. destruct (reduce_head RNum d _ _ _ E2) as (u & p' & E1 & l' & ->).
        specialize (M3 _ _ E1). intro Q. apply (same_merges d) in Q. rewrite same_with_len in Q. congruence.
      * apply (G i); auto.
Qed.

Lemma reduce_sum d p : signed_length (path_reduce RNum d p) = signed_length p.
Proof.
  destruct (reduce_ok d p) as (gs & E & F & _). rewrite E at 2. clear E. induction F as [|g r gs rs (s & ts & -> & -> & _) F IH]; auto.
  cbn [concat]. unfold signed_length in *. rewrite map_app, rsum_app. cbn [map]. rewrite rsum_cons, IH. reflexivity.
Qed.

Lemma length_signed (p : list rstate) : (forall s : rstate, In s p -> 0 <= ps_len s) -> path_length RNum p = signed_length p.
Proof.
  intro H. rewrite length_sum. unfold signed_length. f_equal. apply map_ext_in. intros s Hs. apply Rabs_right. apply Rle_ge, H, Hs.
Qed.

(** Motions. *)
Lemma carried_contiguous f p q : Forall2 (carried f) p q -> contiguous p -> contiguous q.
Proof.
  intros F C i s t Hs Ht. apply Forall2_nth_error in F. destruct F as [L F].
  assert (Hi : (S i < length q)%nat) by (apply nth_error_Some; congruence).
  destruct (nth_error p i) as [s0|] eqn:Es; [|apply nth_error_None in Es; lia].
  destruct (nth_error p (S i)) as [t0|] eqn:Et; [|apply nth_error_None in Et; lia].
  destruct (F i _ _ Es Hs) as (_ & A & El & _). destruct (F (S i) _ _ Et Ht) as (B & _). rewrite El. eapply A; [|exact B]. eapply C; eauto.
Qed.

Lemma carried_lengths f p q : Forall2 (carried f) p q -> path_length RNum p = path_length RNum q /\ path_getTaskTime RNum p = path_getTaskTime RNum q.
Proof.
  intro F. rewrite !length_sum, !time_sum. induction F as [|s t p q (_ & _ & A & _ & _ & B) F [IH1 IH2]]; auto.
  cbn [map]. rewrite !rsum_cons, IH1, IH2. unfold al, tm. rewrite A, B. auto.
Qed.
