(** Lemmas about random cells. *)
From Coq Require Import List Arith ZArith Lia Bool Reals Lra Psatz.
From Verif Require Import Outcome Num ListAux Point_Model Angle_Model Angle_Spec Angle_Proofs Container_Model Container_Spec Container_Proofs
  Container_Props SwathGen_Model Border_Model Border_Spec Random_Model Random_Spec.
Import ListNotations.
Open Scope R_scope.

Lemma Rltb_true' a b : a < b -> Rltb a b = true.
Proof. intro H. unfold Rltb. destruct (Rlt_dec a b); [reflexivity|lra]. Qed.

Lemma linear_ok u lo hi k : lo < hi -> getRandomLinear u lo hi k = Ok (u k * (hi - lo) + lo, S k).
Proof. intro H. unfold getRandomLinear. rewrite Rltb_true' by exact H. reflexivity. Qed.

(** The point of index [i]. *)
Definition drawn_point (u : nat -> R) (k : nat) (n : Z) (lo hi : R) (i : nat) : pt :=
  let a := 2 * PI * (INR i + (u (k + 2 * i + 1)%nat * (1 - 0) + 0)) / IZR n in
  let r := u (k + 2 * i)%nat * (hi - lo) + lo in mkPoint (N := RNum) (r * sin a) (r * cos a) 0.

Lemma border_ok u n lo hi k : lo < hi ->
  rand_border u n lo hi k = Ok (map (drawn_point u k n lo hi) (seq 0 (Z.to_nat n)), (k + 2 * Z.to_nat n)%nat).
Proof.
  intro H. unfold rand_border.
  assert (G : forall m a acc, foldM (fun st i => do p <- rand_point u n lo hi i (snd st); Ok (fst st ++ [fst p], snd p)) (seq a m) (acc, (k + 2 * a)%nat) =
    Ok (acc ++ map (drawn_point u k n lo hi) (seq a m), (k + 2 * (a + m))%nat)).
  { induction m as [|m IH]; intros a acc; cbn [seq foldM map].
    - rewrite app_nil_r, Nat.add_0_r. reflexivity.
    - unfold rand_point at 1. cbn [snd]. rewrite linear_ok by exact H. cbn [bind snd fst]. unfold getRandomDouble. rewrite linear_ok by lra.
      cbn [bind snd fst]. replace (S (S (k + 2 * a))) with (k + 2 * S a)%nat by lia. rewrite IH. rewrite <- app_assoc. cbn [app].
      replace (a + S m)%nat with (S a + m)%nat by lia. unfold drawn_point at 2. replace (k + 2 * a + 1)%nat with (S (k + 2 * a)) by lia. reflexivity. }
  specialize (G (Z.to_nat n) 0%nat []). rewrite Nat.mul_0_r, Nat.add_0_r in G. rewrite G. reflexivity.
Qed.

Lemma drawn_ok u k n lo hi : (0 < n)%Z -> drawn u k (Z.to_nat n) lo hi (map (drawn_point u k n lo hi) (seq 0 (Z.to_nat n))).
Proof.
  intro Hn. split; [rewrite map_length, seq_length; reflexivity|]. intros i p H. rewrite nth_error_map in H.
  destruct (nth_error (seq 0 (Z.to_nat n)) i) as [j|] eqn:E; [|discriminate]. cbn in H. injection H as <-.
  assert (L : (i < Z.to_nat n)%nat). { rewrite <- (seq_length (Z.to_nat n) 0). apply nth_error_Some. congruence. }
  rewrite (nth_error_nth' _ 0%nat) in E by (rewrite seq_length; exact L). rewrite seq_nth in E by exact L. injection E as <-. cbn [plus].
  unfold drawn_point. rewrite (INR_IZR_INZ (Z.to_nat n)), Z2Nat.id by lia.
  assert (IZR n <> 0) by (apply not_0_IZR; lia).
  eexists _, _. split; [reflexivity|]. split; [reflexivity|]. cbn [px py pz].
  replace (2 * PI * (INR i + (u (k + 2 * i + 1)%nat * (1 - 0) + 0)) / IZR n) with ((INR i + u (k + 2 * i + 1)%nat) * (2 * PI / IZR n)) by (field; auto).
  rewrite (Rplus_comm _ lo). repeat split.
Qed.

(** *** Areas *)

Definition crossz (a b : pt) : R := px a * py b - px b * py a.

Lemma shoelace_scale s (f f' : pt) (l l' : list pt) : scaled s f f' -> Forall2 (scaled s) l l' -> shoelace f' l' = s * s * shoelace f l.
Proof.
  intros (F1 & F2 & _) H. induction H as [|a b l l' (A1 & A2 & _) H IH]; [cbn; ring|].
  destruct H as [|c d l l' (C1 & C2 & _) H].
  - cbn [shoelace]. rewrite A1, A2, F1, F2. ring.
  - change (shoelace f' (b :: d :: l')) with (px b * py d - px d * py b + shoelace f' (d :: l')). rewrite IH.
    change (shoelace f (a :: c :: l)) with (px a * py c - px c * py a + shoelace f (c :: l)). rewrite A1, A2, C1, C2. ring.
Qed.

(** [q] is within [d] of [p] in the plane. *)
Definition near (d : R) (p q : pt) : Prop := Rabs (px q - px p) <= d /\ Rabs (py q - py p) <= d.

Lemma cross_near d M (a b a' b' : pt) : 0 <= d -> near d a a' -> near d b b' -> Rabs (px a) <= M -> Rabs (py a) <= M -> Rabs (px b) <= M -> Rabs (py b) <= M ->
  Rabs (crossz a' b' - crossz a b) <= 4 * M * d + 2 * (d * d).
Proof.
  intros D (A1 & A2) (B1 & B2) Ma1 Ma2 Mb1 Mb2. unfold crossz.
  set (e1 := px a' - px a) in *. set (e2 := py a' - py a) in *. set (g1 := px b' - px b) in *. set (g2 := py b' - py b) in *.
  replace (px a' * py b' - px b' * py a' - (px a * py b - px b * py a)) with
    (px a * g2 + e1 * py b + e1 * g2 - (px b * e2 + g1 * py a + g1 * e2)) by (unfold e1, e2, g1, g2; ring).
  assert (P : forall x y X Y, Rabs x <= X -> Rabs y <= Y -> Rabs (x * y) <= X * Y).
  { intros x y X Y HX HY. rewrite Rabs_mult. apply Rmult_le_compat; auto using Rabs_pos. }
  pose proof (P _ _ _ _ Ma1 B2) as Q1. pose proof (P _ _ _ _ A1 Mb2) as Q2. pose proof (P _ _ _ _ A1 B2) as Q3.
  pose proof (P _ _ _ _ Mb1 A2) as Q4. pose proof (P _ _ _ _ B1 Ma2) as Q5. pose proof (P _ _ _ _ B1 A2) as Q6.
  apply Rabs_le.
  assert (X : forall x y, Rabs x <= y -> - y <= x <= y) by (intros x y Hx; unfold Rabs in Hx; destruct (Rcase_abs x); lra).
  apply X in Q1, Q2, Q3, Q4, Q5, Q6. lra.
Qed.

Lemma shoelace_near d M (f f' : pt) (l l' : list pt) : 0 <= d -> near d f f' -> Rabs (px f) <= M -> Rabs (py f) <= M ->
  Forall2 (near d) l l' -> (forall p, In p l -> Rabs (px p) <= M /\ Rabs (py p) <= M) ->
  Rabs (shoelace f' l' - shoelace f l) <= INR (length l) * (4 * M * d + 2 * (d * d)).
Proof.
  intros D F F1 F2 H. induction H as [|a b l l' A H IH]; intro B.
  - cbn [shoelace length INR]. rewrite Rminus_0_r, Rabs_R0. lra.
  - assert (Ba := B a (or_introl eq_refl)). destruct H as [|c e l l' C H].
    + cbn [shoelace length INR]. rewrite Rmult_1_l. apply (cross_near d M a f b f'); tauto.
    + change (shoelace f' (b :: e :: l')) with (crossz b e + shoelace f' (e :: l')).
      change (shoelace f (a :: c :: l)) with (crossz a c + shoelace f (c :: l)).
      assert (Bc := B c (or_intror (or_introl eq_refl))).
      specialize (IH (fun p Hp => B p (or_intror Hp))).
      assert (Q : Rabs (crossz b e - crossz a c) <= 4 * M * d + 2 * (d * d)) by (apply cross_near; tauto).
      replace (crossz b e + shoelace f' (e :: l') - (crossz a c + shoelace f (c :: l))) with
        ((crossz b e - crossz a c) + (shoelace f' (e :: l') - shoelace f (c :: l))) by ring.
      eapply Rle_trans; [apply Rabs_triang|]. change (length (a :: c :: l)) with (S (length (c :: l))). rewrite S_INR. lra.
Qed.

Lemma shoelace_close (f : pt) l : l <> [] -> shoelace f (l ++ [f]) = shoelace f l.
Proof.
  induction l as [|a l IH]; intro NE; [congruence|]. destruct l as [|b l].
  - cbn [app shoelace]. ring.
  - change (shoelace f ((a :: b :: l) ++ [f])) with (crossz a b + shoelace f ((b :: l) ++ [f])). rewrite IH by discriminate. reflexivity.
Qed.

Lemma shoelace_neg (f : pt) : forall l, l <> [] -> (forall i a b, nth_error l i = Some a -> nth_error l (S i) = Some b -> crossz a b < 0) ->
  (forall a, nth_error l (length l - 1) = Some a -> crossz a f < 0) -> shoelace f l < 0.
Proof.
  induction l as [|a l IH]; intros NE H E; [congruence|]. destruct l as [|b l].
  - apply (E a). reflexivity.
  - change (shoelace f (a :: b :: l)) with (crossz a b + shoelace f (b :: l)).
    assert (A := H 0%nat a b eq_refl eq_refl). assert (B : shoelace f (b :: l) < 0).
    { apply IH; [discriminate|intros i x y X Y; apply (H (S i)); auto|]. intros x X. apply E.
      cbn [length] in *. replace (S (S (length l)) - 1)%nat with (S (S (length l) - 1)) by lia. exact X. }
    lra.
Qed.

Lemma crossz_polar r a r' a' (p q : pt) : px p = r * sin a -> py p = r * cos a -> px q = r' * sin a' -> py q = r' * cos a' ->
  crossz p q = r * r' * sin (a - a').
Proof. intros A B C D. unfold crossz. rewrite A, B, C, D, sin_minus. ring. Qed.

(** With four or more sectors the points go round clockwise. *)
Lemma drawn_clockwise u k n lo hi f l : unit_values u -> 0 < lo < hi -> (4 <= n)%nat -> drawn u k n lo hi (f :: l) -> shoelace f (f :: l) < 0.
Proof.
  intros U B Hn (L & H). set (t := 2 * PI / INR n) in *.
  assert (N0 : 4 <= INR n) by (apply le_INR in Hn; simpl in Hn; lra).
  assert (T : 0 < t /\ 2 * t <= PI).
  { pose proof PI_RGT_0. unfold t. split; [apply Rmult_lt_0_compat; [lra|apply Rinv_0_lt_compat; lra]|].
    apply (Rmult_le_reg_r (INR n)); [lra|]. replace (2 * (2 * PI / INR n) * INR n) with (4 * PI) by (field; lra). nra. }
  assert (NT : INR n * t = 2 * PI) by (unfold t; field; lra).
  assert (SP : forall x, 0 < x < 2 -> 0 < sin (x * t)).
  { intros x Hx. apply sin_gt_0; nra. }
  assert (RP : forall j, 0 < lo + u j * (hi - lo)).
  { intro j. pose proof (U j). assert (0 <= u j * (hi - lo)) by (apply Rmult_le_pos; lra). lra. }
  apply shoelace_neg; [discriminate| |].
  - intros i a b Ha Hb. destruct (H _ _ Ha) as (r & x & -> & -> & P1 & P2 & _). destruct (H _ _ Hb) as (r' & x' & -> & -> & Q1 & Q2 & _).
    rewrite (crossz_polar _ _ _ _ _ _ P1 P2 Q1 Q2). rewrite S_INR.
    replace ((INR i + u (k + 2 * i + 1)%nat) * t - (INR i + 1 + u (k + 2 * S i + 1)%nat) * t) with
      (- ((1 + u (k + 2 * S i + 1)%nat - u (k + 2 * i + 1)%nat) * t)) by ring.
    rewrite sin_neg. pose proof (U (k + 2 * S i + 1)%nat). pose proof (U (k + 2 * i + 1)%nat).
    assert (0 < sin ((1 + u (k + 2 * S i + 1)%nat - u (k + 2 * i + 1)%nat) * t)) by (apply SP; lra).
    assert (0 < (lo + u (k + 2 * i)%nat * (hi - lo)) * (lo + u (k + 2 * S i)%nat * (hi - lo))) by (apply Rmult_lt_0_compat; apply RP).
    nra.
  - intros a Ha. rewrite L in Ha. destruct (H _ _ Ha) as (r & x & -> & -> & P1 & P2 & _).
    destruct (H 0%nat f eq_refl) as (r' & x' & -> & -> & Q1 & Q2 & _).
    rewrite (crossz_polar _ _ _ _ _ _ P1 P2 Q1 Q2). rewrite minus_INR by lia.
    set (u1 := u (k + 2 * (n - 1) + 1)%nat). set (u0 := u (k + 2 * 0 + 1)%nat).
    replace ((INR n - INR 1 + u1) * t - (INR 0 + u0) * t) with (- ((1 + u0 - u1) * t) + 2 * PI) by (rewrite <- NT; simpl; ring).
    rewrite sin_plus, cos_2PI, sin_2PI, sin_neg. assert (V1 : 0 <= u1 < 1) by apply U. assert (V0 : 0 <= u0 < 1) by apply U.
    assert (0 < sin ((1 + u0 - u1) * t)) by (apply SP; lra).
    assert (0 < (lo + u (k + 2 * (n - 1))%nat * (hi - lo)) * (lo + u (k + 2 * 0)%nat * (hi - lo))) by (apply Rmult_lt_0_compat; apply RP).
    nra.
Qed.
