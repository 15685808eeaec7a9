(** Proofs about the simplification of connections. *)
From Coq Require Import List Arith ZArith Bool Reals Lia Lra Sorting.Sorted.
From Verif Require Import Outcome Num ListAux Swath_Model Route_Model Point_Model Angle_Model Angle_Spec Angle_Proofs Angle_Proofs2 Angle_Props Objective_Model
  Path_Model Path_Spec Robot_Model Turning_Proofs PathPlanning_Model PathPlanning_Spec PathPlanning_Proofs.
Import ListNotations.
Open Scope R_scope.

Lemma dist2_nonneg (a b : pt) : 0 <= dist2 a b.
Proof. assert (Q : forall u v : R, 0 <= u * u + v * v) by (intros; nra). apply Q. Qed.
Lemma dist2_zero (a b : pt) : dist2 a b = 0 -> px a = px b /\ py a = py b.
Proof. assert (Q : forall u v x y : R, (u - v) * (u - v) + (x - y) * (x - y) = 0 -> u = v /\ x = y).
  { intros u v x y H. destruct (Rplus_sqr_eq_0 (u - v) (x - y) H). lra. }
  apply Q.
Qed.

Lemma angle_zero (a b : pt) : dist2 a b = 0 -> angleFromPoint (p_sub RNum b a) = 0.
Proof.
  intro H. apply dist2_zero in H. destruct H as [X Y]. rewrite angleFromPoint_eq. cbn [p_sub px py].
  replace (nsub RNum (px b) (px a)) with 0 by (rewrite X; cbn [nsub RNum]; symmetry; apply Rminus_diag_eq; reflexivity).
  replace (nsub RNum (py b) (py a)) with 0 by (rewrite Y; cbn [nsub RNum]; symmetry; apply Rminus_diag_eq; reflexivity).
  unfold Ratan2. destruct (Rlt_dec 0 0); [lra|]. pose proof PI_RGT_0. apply mod2_unique; [lra|apply congruent_refl].
Qed.

Lemma direction_angle (a b : pt) : direction a b (angleFromPoint (p_sub RNum b a)).
Proof. split; [apply heading_angle|apply angle_zero]. Qed.

Lemma heading_unique (a b : pt) h : 0 < dist2 a b -> heading a b h -> h = angleFromPoint (p_sub RNum b a).
Proof.
  intros D (R1 & X & Y). destruct (heading_angle a b) as (R2 & X2 & Y2).
  assert (P : 0 < R_sqrt.sqrt (dist2 a b)) by (apply sqrt_lt_R0; auto).
  assert (C : congruent (angleFromPoint (p_sub RNum b a)) h).
  { apply angle_unique; apply (Rmult_eq_reg_l (R_sqrt.sqrt (dist2 a b))); lra. }
  rewrite <- (mod2_id h R1), <- (mod2_id (angleFromPoint (p_sub RNum b a)) R2). apply mod2_eq_iff. apply congruent_sym; auto.
Qed.

Lemma direction_unique (a b : pt) h : direction a b h -> h = angleFromPoint (p_sub RNum b a).
Proof.
  intros [H Z]. destruct (Req_dec (dist2 a b) 0) as [E|E].
  - rewrite (Z E), angle_zero; auto.
  - apply heading_unique; auto. pose proof (dist2_nonneg a b). lra.
Qed.

Lemma bend_dec (a b c : pt) :
  1 / 10 < Rabs (angleFromPoint (p_sub RNum b a) - angleFromPoint (p_sub RNum c b)) <-> bend a b c.
Proof.
  split.
  - intro H. do 2 eexists. split; [apply direction_angle|]. split; [apply direction_angle|auto].
  - intros (h & k & H & K & L). rewrite (direction_unique _ _ _ H), (direction_unique _ _ _ K) in L. exact L.
Qed.

Lemma corners_bends mp : bends mp (conn_corners mp).
Proof.
  induction mp as [|a t IH].
  - exists []. split; [constructor|]. split; [|constructor]. intro j. split; [intros []|]. intros (x & y & z & E & _). destruct j; discriminate.
  - destruct t as [|b [|c t]].
    + exists []. split; [constructor|]. split; [|constructor]. intro j. split; [intros []|]. intros (x & y & z & _ & E & _). destruct j; discriminate.
    + exists []. split; [constructor|]. split; [|constructor]. intro j. split; [intros []|]. intros (x & y & z & _ & _ & E & _). destruct j as [|[|]]; discriminate.
    + destruct IH as (idx & S1 & I1 & F1).
      assert (SS : StronglySorted lt (map S idx)).
      { clear - S1. induction S1 as [|x l S1 IH F]; [constructor|]. cbn [map]. constructor; [exact IH|]. rewrite Forall_map. apply (Forall_impl _ (P := lt x)); [intros; lia|exact F]. }
      assert (FS : Forall2 (fun j y => nth_error (a :: b :: c :: t) (S j) = Some y) (map S idx) (conn_corners (b :: c :: t))).
      { clear - F1. induction F1; constructor; auto. }
      assert (BS : forall j, bend_after (a :: b :: c :: t) (S j) <-> bend_after (b :: c :: t) j) by (intro j; reflexivity).
      assert (B0 : bend_after (a :: b :: c :: t) 0 <-> bend a b c).
      { split; [intros (x & y & z & E1 & E2 & E3 & B); cbn [nth_error] in *; congruence|intro B; exists a, b, c; auto]. }
      change (conn_corners (a :: b :: c :: t)) with (if Rlt_dec (1 / 10) (Rabs (angleFromPoint (p_sub RNum b a) - angleFromPoint (p_sub RNum c b)))
        then b :: conn_corners (b :: c :: t) else conn_corners (b :: c :: t)).
      destruct (Rlt_dec _ _) as [L|L].
      * apply bend_dec in L. exists (0%nat :: map S idx). split; [constructor; [exact SS|rewrite Forall_map; apply Forall_forall; intros; lia]|]. split; [|constructor; auto].
        intro j. destruct j as [|j]; [split; [intros _; apply B0; auto|left; auto]|]. rewrite BS, <- I1. cbn [In]. split.
        -- intros [Z|Z]; [discriminate|]. apply in_map_iff in Z. destruct Z as (k & E & K). injection E as <-. auto.
        -- intro K. right. apply in_map; auto.
      * rewrite bend_dec in L. exists (map S idx). split; [exact SS|]. split; [|exact FS]. intro j. destruct j as [|j].
        -- split; [intro Z; apply in_map_iff in Z; destruct Z as (k & E & _); discriminate|intro B; apply B0 in B; contradiction].
        -- rewrite BS, <- I1. split; [intro Z; apply in_map_iff in Z; destruct Z as (k & E & K); injection E as <-; auto|intro K; apply in_map; auto].
Qed.

(** The plane. *)
Lemma sqrt_le_of a b : 0 <= b -> a <= b * b -> R_sqrt.sqrt a <= b.
Proof. intros B L. rewrite <- (sqrt_square b B). apply sqrt_le_1_alt. exact L. Qed.

Lemma near_out (d e s : R) (u v w z : R) : 0 <= d <= s -> 0 <= e <= s -> u * u + v * v = d * d -> w * w + z * z = e * e ->
  R_sqrt.sqrt ((u - w) * (u - w) + (v - z) * (v - z)) <= 2 * s.
Proof.
  intros D E H K. apply sqrt_le_of; [lra|].
  assert ((u - w) * (u - w) + (v - z) * (v - z) <= 2 * (d * d) + 2 * (e * e)) by (pose proof (Rle_0_sqr (u + w)); pose proof (Rle_0_sqr (v + z)); unfold Rsqr in *; lra).
  assert (d * d <= s * s) by nra. assert (e * e <= s * s) by nra. nra.
Qed.

Section Step.
  Variables safe : R.
  Hypothesis Safe : 0 <= safe.
  Variables p1 p2 : pt.

  Definition p_before (a b : pt) : pt :=
    p_add RNum (p_scale RNum (p_sub RNum a b) (Rmin (/ 2 * p_distance b a) safe / p_distance b a)) b.

  Lemma p_distance_sym (a b : pt) : p_distance a b = p_distance b a.
  Proof. unfold p_distance. f_equal. ring. Qed.

  Lemma distance_pos (a b : pt) : p_distance b a <> 0 -> 0 < p_distance b a /\ 0 < dist2 a b.
  Proof.
    intro H. assert (0 <= p_distance b a) by apply sqrt_pos. split; [lra|]. rewrite p_distance_sym in H.
    pose proof (dist2_nonneg a b) as G. destruct (Req_dec (dist2 a b) 0) as [E|E]; [|lra]. exfalso. apply H. unfold p_distance. fold (dist2 a b). rewrite E. apply sqrt_0.
  Qed.

  Lemma before_xy (a b : pt) : p_distance b a <> 0 -> let h := angleFromPoint (p_sub RNum b a) in let d := Rmin (/ 2 * p_distance b a) safe in
    px (p_before a b) = px b - d * cos h /\ py (p_before a b) = py b - d * sin h.
  Proof.
    intros H h d. destruct (heading_angle a b) as (_ & X & Y). fold h in X, Y. change (R_sqrt.sqrt (dist2 a b)) with (p_distance a b) in X, Y. rewrite p_distance_sym in X, Y.
    unfold p_before. fold d. cbn [p_add p_scale p_sub px py]. 
    assert (Q : forall n x y c : R, n <> 0 -> y = x + n * c -> (x - y) * (d / n) + y = y - d * c).
    { intros n x y c N ->. field. auto. }
    split; [exact (Q _ _ _ _ H X)|exact (Q _ _ _ _ H Y)].
  Qed.

  Lemma before_entering (a b : pt) : p_distance b a <> 0 -> entering safe a b (p_before a b, angleFromPoint (p_sub RNum b a)).
  Proof.
    intro H. destruct (distance_pos a b H) as [P D]. split; [exact D|]. split; [apply heading_angle|]. eexists. split; [reflexivity|]. cbn [fst snd].
    destruct (before_xy a b H) as [X Y]. rewrite X, Y. replace (R_sqrt.sqrt (dist2 a b) / 2) with (/ 2 * p_distance b a); [auto|].
    rewrite (p_distance_sym b a). unfold p_distance. fold (dist2 a b). lra.
  Qed.

  Lemma entering_unique (a b : pt) x : p_distance b a <> 0 -> entering safe a b x ->
    px (fst x) = px (p_before a b) /\ py (fst x) = py (p_before a b) /\ snd x = angleFromPoint (p_sub RNum b a).
  Proof.
    intros H (D & Hh & d & E & X & Y). pose proof (heading_unique _ _ _ D Hh) as U. destruct (before_xy a b H) as [BX BY]. rewrite BX, BY, X, Y, U.
    replace (Rmin (/ 2 * p_distance b a) safe) with d; [auto|]. rewrite E. f_equal. rewrite (p_distance_sym b a). unfold p_distance. fold (dist2 a b). lra.
  Qed.

  Lemma in_out_near (a b c : pt) : p_distance b a <> 0 -> p_distance b c <> 0 ->
    p_distance (p_before c b) (p_before a b) <= 2 * safe.
  Proof.
    intros H K. destruct (before_xy a b H) as [AX AY]. destruct (before_xy c b K) as [CX CY].
    unfold p_distance at 1. rewrite AX, AY, CX, CY.
    set (h := angleFromPoint (p_sub RNum b a)). set (k := angleFromPoint (p_sub RNum b c)). set (d := Rmin (/ 2 * p_distance b a) safe). set (e := Rmin (/ 2 * p_distance b c) safe).
    destruct (distance_pos a b H) as [PA _]. destruct (distance_pos c b K) as [PC _].
    assert (D : 0 <= d <= safe) by (split; [unfold d; apply Rmin_glb; lra|apply Rmin_r]).
    assert (E : 0 <= e <= safe) by (split; [unfold e; apply Rmin_glb; lra|apply Rmin_r]).
    pose proof (sin2_cos2 h) as SH. pose proof (sin2_cos2 k) as SK. unfold Rsqr in SH, SK.
    assert (Q : forall x y u v w z : R, R_sqrt.sqrt ((x - u - (x - w)) * (x - u - (x - w)) + (y - v - (y - z)) * (y - v - (y - z))) = R_sqrt.sqrt ((w - u) * (w - u) + (z - v) * (z - v)))
      by (intros; f_equal; ring).
    eapply Rle_trans; [right; apply Q|]. apply (near_out d e safe); auto.
    - transitivity (d * d * (sin h * sin h + cos h * cos h)); [ring|rewrite SH; ring].
    - transitivity (e * e * (sin k * sin k + cos k * cos k)); [ring|rewrite SK; ring].
  Qed.

  (** A step adds at most the entering pose. *)
  Lemma step_eq pre back (a b c : pt) : simp_step safe p1 p2 (pre ++ [back]) a b c =
    Ok (if Req_EM_T (p_distance b a) 0 then pre ++ [back] else if Req_EM_T (p_distance b c) 0 then pre ++ [back] else
        if Rlt_dec (3 * safe) (p_distance (p_before a b) (fst back)) then
        if Rlt_dec (3 * safe) (p_distance (p_before a b) p1) then
        if Rlt_dec (3 * safe) (p_distance (p_before a b) p2) then
          pre ++ [back] ++ [(p_before a b, angleFromPoint (p_sub RNum b a))]
        else pre ++ [back] else pre ++ [back] else pre ++ [back]).
  Proof.
    unfold simp_step. destruct (Req_EM_T (p_distance b a) 0) as [E|E]; [reflexivity|]. destruct (Req_EM_T (p_distance b c) 0) as [F|F]; [reflexivity|].
    rewrite vec_back_last. cbn [bind]. fold (p_before a b). fold (p_before c b). pose proof (in_out_near a b c E F) as N.
    destruct (Rlt_dec (3 * safe) (p_distance (p_before c b) (p_before a b))) as [L|L]; [lra|].
    f_equal. rewrite <- app_assoc. repeat match goal with |- context [Rlt_dec ?x ?y] => destruct (Rlt_dec x y) end; reflexivity.
  Qed.

  (** What the loop adds. *)
  Definition good (vp : list pt) (x : pose) : Prop :=
    (exists a b c, consecutive vp a b c /\ 0 < dist2 b c /\ entering safe a b x) /\ away (3 * safe) (fst x) p1 /\ away (3 * safe) (fst x) p2.

  Definition far (x y : pose) : Prop := away (3 * safe) (fst x) (fst y).

  Lemma away_sym d (a b : pt) : away d a b -> away d b a.
  Proof. unfold away. replace (dist2 b a) with (dist2 a b) by (unfold dist2; ring). auto. Qed.

  Lemma chain_snoc {A} (P : A -> A -> Prop) pre x y : chain P (pre ++ [x]) -> P x y -> chain P (pre ++ [x] ++ [y]).
  Proof.
    induction pre as [|a pre IH]; intros C H; [cbn [app chain]; auto|]. destruct pre as [|b pre]; [cbn [app chain] in *; tauto|].
    cbn [app] in *. destruct C as [C1 C2]. split; [exact C1|]. apply IH; auto.
  Qed.

  Lemma loop_ok : forall vp pre0 vp0 pre back, vp0 = pre0 ++ vp -> chain far (pre ++ [back]) -> 
    exists inner, simp_loop safe p1 p2 (pre ++ [back]) vp = Ok (pre ++ [back] ++ inner) /\ Forall (good vp0) inner /\ chain far (pre ++ [back] ++ inner) /\
      forall a b c, consecutive vp a b c -> 0 < dist2 a b -> 0 < dist2 b c -> forall x, entering safe a b x ->
        (exists y, In y inner /\ px (fst y) = px (fst x) /\ py (fst y) = py (fst x) /\ snd y = snd x) \/ ~ away (3 * safe) (fst x) p1 \/ ~ away (3 * safe) (fst x) p2 \/
        exists y, In y (back :: inner) /\ ~ far x y.
  Proof.
    induction vp as [|a vp IH]; intros pre0 vp0 pre back E C.
    - exists []. rewrite app_nil_r. split; [reflexivity|]. split; [constructor|]. split; [exact C|]. intros a b c (p & q & Z). destruct p; discriminate.
    - destruct vp as [|b [|c vp]].
      + exists []. rewrite app_nil_r. split; [reflexivity|]. split; [constructor|]. split; [exact C|]. intros x b c (p & q & Z). destruct p as [|? [|]]; discriminate.
      + exists []. rewrite app_nil_r. split; [reflexivity|]. split; [constructor|]. split; [exact C|]. intros x y c (p & q & Z). destruct p as [|? [|? [|]]]; discriminate.
      + change (simp_loop safe p1 p2 (pre ++ [back]) (a :: b :: c :: vp)) with (do path <- simp_step safe p1 p2 (pre ++ [back]) a b c; simp_loop safe p1 p2 path (b :: c :: vp)).
        rewrite step_eq. cbn [bind].
        assert (E' : vp0 = (pre0 ++ [a]) ++ b :: c :: vp) by (rewrite <- app_assoc; exact E).
        assert (CS : forall x y z, consecutive (a :: b :: c :: vp) x y z -> (x = a /\ y = b /\ z = c) \/ consecutive (b :: c :: vp) x y z).
        { intros x y z (p & q & Z). destruct p as [|p0 p]; [left; injection Z as -> -> -> _; auto|right]. injection Z as _ Z. exists p, q. exact Z. }
        assert (KEEP : (0 < dist2 a b -> 0 < dist2 b c -> p_distance b a <> 0 -> ~ away (3 * safe) (p_before a b) p1 \/ ~ away (3 * safe) (p_before a b) p2 \/ ~ away (3 * safe) (p_before a b) (fst back)) ->
          exists inner, simp_loop safe p1 p2 (pre ++ [back]) (b :: c :: vp) = Ok (pre ++ [back] ++ inner) /\ Forall (good vp0) inner /\ chain far (pre ++ [back] ++ inner) /\
            forall x y z, consecutive (a :: b :: c :: vp) x y z -> 0 < dist2 x y -> 0 < dist2 y z -> forall w, entering safe x y w ->
              (exists v, In v inner /\ px (fst v) = px (fst w) /\ py (fst v) = py (fst w) /\ snd v = snd w) \/ ~ away (3 * safe) (fst w) p1 \/ ~ away (3 * safe) (fst w) p2 \/
              exists v, In v (back :: inner) /\ ~ far w v).
        { intro K. destruct (IH (pre0 ++ [a]) vp0 pre back E' C) as (inner & R1 & R2 & R3 & R4). exists inner. split; [exact R1|]. split; [exact R2|]. split; [exact R3|].
          intros x y z T D1 D2 w W. destruct (CS _ _ _ T) as [(-> & -> & ->)|T']; [|eapply R4; eauto].
          assert (NZ : p_distance b a <> 0).
          { rewrite p_distance_sym. change (p_distance a b) with (R_sqrt.sqrt (dist2 a b)). pose proof (sqrt_lt_R0 _ D1). lra. }
          destruct (entering_unique _ _ _ NZ W) as (WX & WY & _). unfold far, away, dist2 in *. rewrite WX, WY. destruct (K D1 D2 NZ) as [Q|[Q|Q]]; [tauto|tauto|].
          right. right. right. exists back. split; [left; auto|]. exact Q. }
        assert (DZ : forall u v : pt, p_distance v u = 0 -> ~ 0 < dist2 u v).
        { intros u v Z L. rewrite p_distance_sym in Z. change (p_distance u v) with (R_sqrt.sqrt (dist2 u v)) in Z. pose proof (sqrt_lt_R0 _ L). lra. }
        destruct (Req_EM_T (p_distance b a) 0) as [Z1|Z1]; [apply KEEP; intros D _ _; exfalso; exact (DZ _ _ Z1 D)|].
        destruct (Req_EM_T (p_distance b c) 0) as [Z2|Z2]; [apply KEEP; intros _ D _; exfalso; rewrite p_distance_sym in Z2; exact (DZ _ _ Z2 D)|].
        destruct (Rlt_dec (3 * safe) (p_distance (p_before a b) (fst back))) as [L1|L1]; [|apply KEEP; intros _ _ _; right; right; exact L1].
        destruct (Rlt_dec (3 * safe) (p_distance (p_before a b) p1)) as [L2|L2]; [|apply KEEP; intros _ _ _; left; exact L2].
        destruct (Rlt_dec (3 * safe) (p_distance (p_before a b) p2)) as [L3|L3]; [|apply KEEP; intros _ _ _; right; left; exact L3].
        clear KEEP. set (x := (p_before a b, angleFromPoint (p_sub RNum b a)) : pose).
        assert (D2 : 0 < dist2 b c).
        { destruct (distance_pos b c) as [_ D]; [rewrite p_distance_sym; exact Z2|]. exact D. }
        assert (C' : chain far ((pre ++ [back]) ++ [x])).
        { rewrite <- app_assoc. apply chain_snoc; [exact C|]. apply away_sym. exact L1. }
        destruct (IH (pre0 ++ [a]) vp0 (pre ++ [back]) x E' C') as (inner & R1 & R2 & R3 & R4). exists (x :: inner).
        rewrite <- !app_assoc in R1, R3. cbn [app] in R1, R3 |- *. split; [etransitivity; [exact R1|]; rewrite <- app_assoc; reflexivity|]. split.
        { constructor; [|exact R2]. split; [|split; [exact L2|exact L3]]. exists a, b, c. split; [exists pre0, vp; exact E|]. split; [exact D2|]. apply before_entering; auto. }
        split; [exact R3|]. intros u v z T D1 D3 w W. destruct (CS _ _ _ T) as [(-> & -> & ->)|T'].
        { left. exists x. split; [left; auto|]. destruct (entering_unique _ _ _ Z1 W) as (WX & WY & WH). cbn [fst snd x]. auto. }
        destruct (R4 u v z T' D1 D3 w W) as [(y & I & Y)|[Q|[Q|(y & I & Q)]]]; [left; exists y; split; [right; auto|auto]|auto|auto|].
        right. right. right. exists y. split; [right; exact I|exact Q].
  Qed.
End Step.

(** simplifyConnection as a whole. *)
Section Whole.
  Variable clothoid : R -> R -> R * R * R.
  Variable rb : robot RNum.

  Lemma radius_nonneg : 0 <= getSmoothTurningRadius clothoid rb.
  Proof. unfold getSmoothTurningRadius. destruct (clothoid _ _) as [[x y] g]. apply sqrt_pos. Qed.

  Lemma simplify_raw (p1 : pt) a1 mp (p2 : pt) a2 : let safe := getSmoothTurningRadius clothoid rb in
    exists inner vp, simplifyConnection clothoid rb p1 a1 mp p2 a2 = Ok ((p1, a1) :: inner ++ [(p2, a2)]) /\ bends mp vp /\
      Forall (good safe p1 p2 vp) inner /\ (inner <> [] -> chain (far safe) ((p1, a1) :: inner ++ [(p2, a2)])) /\
      (R_sqrt.sqrt (dist2 p1 p2) < 6 * safe -> inner = []) /\
      (6 * safe <= R_sqrt.sqrt (dist2 p1 p2) -> forall a b c, consecutive vp a b c -> 0 < dist2 a b -> 0 < dist2 b c -> forall x, entering safe a b x ->
        (exists y, In y inner /\ px (fst y) = px (fst x) /\ py (fst y) = py (fst x) /\ snd y = snd x) \/
        exists y, In y ((p1, a1) :: inner ++ [(p2, a2)]) /\ ~ far safe x y).
  Proof.
    intro safe. pose proof radius_nonneg as Safe. fold safe in Safe. unfold simplifyConnection. fold safe. change (R_sqrt.sqrt (dist2 p1 p2)) with (p_distance p1 p2).
    pose proof (corners_bends mp) as B.
    destruct (Rlt_dec (p_distance p1 p2) (6 * safe)) as [L|L].
    { exists [], (conn_corners mp). split; [reflexivity|]. split; [exact B|]. split; [constructor|]. split; [congruence|]. split; [auto|]. intro. lra. }
    assert (SHORT : (length (conn_corners mp) < 2)%nat -> exists inner vp, Ok ([(p1, a1)] ++ [(p2, a2)]) = Ok ((p1, a1) :: inner ++ [(p2, a2)]) /\ bends mp vp /\
      Forall (good safe p1 p2 vp) inner /\ (inner <> [] -> chain (far safe) ((p1, a1) :: inner ++ [(p2, a2)])) /\
      (p_distance p1 p2 < 6 * safe -> inner = []) /\
      (6 * safe <= p_distance p1 p2 -> forall a b c, consecutive vp a b c -> 0 < dist2 a b -> 0 < dist2 b c -> forall x, entering safe a b x ->
        (exists y, In y inner /\ px (fst y) = px (fst x) /\ py (fst y) = py (fst x) /\ snd y = snd x) \/
        exists y, In y ((p1, a1) :: inner ++ [(p2, a2)]) /\ ~ far safe x y)).
    { intro S. exists [], (conn_corners mp). split; [reflexivity|]. split; [exact B|]. split; [constructor|]. split; [congruence|]. split; [auto|].
      intros _ a b c (p & q & Z). exfalso. rewrite Z, app_length in S. simpl in S. lia. }
    destruct (Nat.ltb_spec (length mp) 2) as [M|M].
    { apply SHORT. destruct mp as [|x [|y mp]]; simpl in *; lia. }
    destruct (Nat.ltb_spec (length (conn_corners mp)) 2) as [V|V]; [apply SHORT; auto|]. clear SHORT.
    destruct (loop_ok safe Safe p1 p2 (conn_corners mp) [] (conn_corners mp) [] (p1, a1) eq_refl ltac:(exact Logic.I)) as (inner & R1 & R2 & R3 & R4).
    cbn [app] in R1, R3. unfold pose in R1 |- *. rewrite R1. cbn [bind app]. exists inner, (conn_corners mp). split; [reflexivity|]. split; [exact B|]. split; [exact R2|]. split.
    { intro NE. destruct (exists_last NE) as (pre & x & ->). change ((p1, a1) :: (pre ++ [x]) ++ [(p2, a2)]) with (((p1, a1) :: pre ++ [x]) ++ [(p2, a2)]).
      rewrite app_comm_cons, <- app_assoc. apply (chain_snoc (far safe) ((p1, a1) :: pre)); [exact R3|]. rewrite Forall_app in R2. destruct R2 as [_ R2]. inversion R2 as [|? ? G _]; subst. apply G. }
    split; [lra|]. intros _ a b c T D1 D2 x X. destruct (R4 a b c T D1 D2 x X) as [Q|[Q|[Q|(y & I & Q)]]]; [left; auto| | |]; right.
    - exists (p1, a1). split; [left; auto|exact Q].
    - exists (p2, a2). split; [right; apply in_or_app; right; left; auto|exact Q].
    - exists y. split; [|exact Q]. destruct I as [I|I]; [left; auto|right; apply in_or_app; auto].
  Qed.
End Whole.

(** Definedness. *)
Section Defined.
  Variable clothoid : R -> R -> R * R * R.
  Variable T : Type.
  Variable turn : T -> robot RNum -> rpoint -> R -> rpoint -> R -> outcome (list rstate * T).
  Variable Inv : T -> Prop.
  Variable rb : robot RNum.
  (** Points the turns are asked for: a convex set with those of the route. *)
  Variable Q : pt -> Prop.
  Hypothesis Conv : forall (a b x : pt) s, Q a -> Q b -> 0 <= s <= 1 -> px x = px b + s * (px a - px b) -> py x = py b + s * (py a - py b) -> Q x.
  Hypothesis Total : forall t p a q b, Inv t -> Q p -> Q q -> exists r t' d, turn t rb p a q b = Ok (r, t') /\ Inv t' /\ path_discretize r (1 / 10) = Ok d.

  Lemma outAngle_ok s : (2 <= length (sw_path s))%nat -> exists a, pp_outAngle s = Ok a.
  Proof.
    intro H. unfold pp_outAngle, sw_getOutAngle. rewrite <- rev_length in H. destruct (rev (sw_path s)) as [|b [|a r]]; [simpl in H; lia|simpl in H; lia|]. eauto.
  Qed.
  Lemma inAngle_ok s : (2 <= length (sw_path s))%nat -> exists a, pp_inAngle s = Ok a.
  Proof. intro H. unfold pp_inAngle, sw_getInAngle. destruct (sw_path s) as [|b [|a r]]; [simpl in H; lia|simpl in H; lia|]. eauto. Qed.
  Lemma appendSwath_ok path (s : rswath) v : (2 <= length (sw_path s))%nat -> exists r, path_appendSwath path (sw_path s) v = Ok r.
  Proof. intro H. unfold path_appendSwath. destruct (sw_path s); [simpl in H; lia|eauto]. Qed.
  Lemma index_ok {A} (l : list A) i : (i < length l)%nat -> exists x, vec_index l i = Ok x /\ In x l.
  Proof. intro H. unfold vec_index. destruct (nth_error l i) eqn:E; [eauto using nth_error_In|apply nth_error_None in E; lia]. Qed.

  Lemma end_in (s : rswath) : (2 <= length (sw_path s))%nat -> (forall p, In p (sw_path s) -> Q p) -> Q (pp_end s) /\ Q (pp_start s).
  Proof.
    intros H2 HQ. unfold pp_end, pp_start, swath_endPoint, swath_startPoint. destruct (sw_path s) as [|x l]; [simpl in H2; lia|]. split; apply HQ; [|left; reflexivity].
    destruct (exists_last (l := x :: l)) as (pre & y & E); [discriminate|]. rewrite E.
    first [rewrite rev_app_distr; cbn [rev app]|rewrite last_last]; apply in_or_app; right; left; reflexivity.
  Qed.

  Lemma plan_steps_ok (swaths : list rswath) : (forall s, In s swaths -> (2 <= length (sw_path s))%nat) -> (forall s p, In s swaths -> In p (sw_path s) -> Q p) -> forall l path t, Inv t ->
    (forall i, In i l -> (S i < length swaths)%nat) ->
    exists r t', foldM (plan_step T turn rb swaths) l (path, t) = Ok (r, t') /\ Inv t'.
  Proof.
    intros H2 HQ. induction l as [|i l IH]; intros path t It Hl; [cbn [foldM]; eauto|]. cbn [foldM]. pose proof (Hl i (or_introl eq_refl)) as Hi.
    unfold plan_step at 1. destruct (index_ok swaths i ltac:(lia)) as (s & E1 & I1). destruct (index_ok swaths (i + 1) ltac:(lia)) as (n & E2 & I2). rewrite E1. cbn [bind].
    destruct (appendSwath_ok path s (rb_getCruiseVel RNum rb) (H2 s I1)) as (p1 & E3). rewrite E3. cbn [bind]. rewrite E2. cbn [bind].
    destruct (outAngle_ok s (H2 s I1)) as (a & E4). destruct (inAngle_ok n (H2 n I2)) as (b & E5). rewrite E4. cbn [bind]. rewrite E5. cbn [bind].
    destruct (Total t (pp_end s) a (pp_start n) b It (proj1 (end_in s (H2 s I1) (fun p => HQ s p I1))) (proj2 (end_in n (H2 n I2) (fun p => HQ n p I2)))) as (r & t1 & d & E6 & I6 & E7). rewrite E6. cbn [bind fst snd]. rewrite E7. cbn [bind]. rewrite append_ok. cbn [bind].
    apply IH; [exact I6|]. intros j Hj. apply Hl. right. auto.
  Qed.

  Lemma plan_swaths_ok (swaths : list rswath) t : Inv t -> (forall s, In s swaths -> (2 <= length (sw_path s))%nat) -> (forall s p, In s swaths -> In p (sw_path s) -> Q p) ->
    exists r t', planPath_swaths T turn t rb swaths = Ok (r, t') /\ Inv t'.
  Proof.
    intros It H2 HQ. unfold planPath_swaths.
    destruct (plan_steps_ok swaths H2 HQ (seq 0 (length swaths - 1)) [] t It) as (r & t' & E & It'); [intros i Hi; apply in_seq in Hi; lia|].
    assert (G : exists r t', (if Nat.ltb 1 (length swaths) then foldM (plan_step T turn rb swaths) (seq 0 (length swaths - 1)) ([], t) else Ok ([], t)) = Ok (r, t') /\ Inv t').
    { destruct (Nat.ltb 1 (length swaths)); eauto. }
    clear E It' r t'. destruct G as (r & t' & -> & It'). cbn [bind]. destruct (Nat.ltb_spec 0 (length swaths)) as [P|P]; [|eauto].
    destruct (exists_last (l := swaths)) as (pre & s & Es); [intro Z; rewrite Z in P; simpl in P; lia|]. rewrite Es, vec_back_last. cbn [bind].
    destruct (appendSwath_ok r s (rb_getCruiseVel RNum rb)) as (p1 & ->); [apply H2; rewrite Es; apply in_or_app; right; left; auto|]. cbn [bind]. eauto.
  Qed.

  Lemma conn_turns_ok : forall v path t, Inv t -> (forall x, In x v -> Q (fst x)) -> exists r t', conn_turns T turn rb path t v = Ok (r, t') /\ Inv t'.
  Proof.
    induction v as [|x v IH]; intros path t It HQ; [cbn [conn_turns]; eauto|]. destruct v as [|y v]; [cbn [conn_turns]; eauto|].
    change (conn_turns T turn rb path t (x :: y :: v)) with
      (do r <- turn t rb (fst x) (snd x) (fst y) (snd y); do path <- path_append RNum false path (fst r); conn_turns T turn rb path (snd r) (y :: v)).
    destruct (Total t (fst x) (snd x) (fst y) (snd y) It (HQ x ltac:(left; auto)) (HQ y ltac:(right; left; auto))) as (r & t1 & d & E & I6 & _). rewrite E. cbn [bind fst snd]. rewrite append_ok. cbn [bind]. apply IH; [exact I6|]. intros z Hz. apply HQ. right. auto.
  Qed.

  Lemma planConnection_ok t p1 a1 mp p2 a2 : Inv t -> Q p1 -> Q p2 -> (forall p, In p mp -> Q p) -> exists r t', planConnection clothoid T turn t rb p1 a1 mp p2 a2 = Ok (r, t') /\ Inv t'.
  Proof.
    intros It Q1 Q2 QM. unfold planConnection. destruct (simplify_raw clothoid rb p1 a1 mp p2 a2) as (inner & vp & -> & (idx & _ & _ & BV) & G & _). cbn [bind]. apply conn_turns_ok; auto.
    assert (QV : forall b, In b vp -> Q b).
    { intros b Hb. clear - BV Hb QM. induction BV as [|j x idx vp E BV IH]; [destruct Hb|]. destruct Hb as [<-|Hb]; auto. apply QM. eapply nth_error_In; eauto. }
    intros x [<-|Hx]; [exact Q1|]. apply in_app_or in Hx. destruct Hx as [Hx|[<-|[]]]; [|exact Q2].
    rewrite Forall_forall in G. destruct (G x Hx) as ((a & b & c & (pre & post & EV) & _ & (D & (_ & HX & HY) & d & Ed & X & Y)) & _).
    assert (Ia : In a vp) by (rewrite EV; apply in_or_app; right; left; auto).
    assert (Ib : In b vp) by (rewrite EV; apply in_or_app; right; right; left; auto).
    set (n := R_sqrt.sqrt (dist2 a b)) in *. assert (N : 0 < n) by (apply sqrt_lt_R0; exact D).
    assert (Dn : 0 <= d <= n / 2).
    { pose proof (radius_nonneg clothoid rb) as RN. rewrite Ed. split; [apply Rmin_glb; lra|apply Rmin_l]. }
    assert (K : forall u v w c0 : R, v = u + n * c0 -> w = v - d * c0 -> w = v + d / n * (u - v)).
    { intros u v w c0 -> ->. field. lra. }
    apply (Conv a b (fst x) (d / n)); auto.
    - split; [apply Rmult_le_pos; [lra|left; apply Rinv_0_lt_compat; exact N]|]. apply (Rmult_le_reg_r n); [exact N|]. unfold Rdiv. rewrite Rmult_assoc, Rinv_l by lra. lra.
    - exact (K _ _ _ _ HX X).
    - exact (K _ _ _ _ HY Y).
  Qed.

  Lemma connection_ok t (s1 : list rswath) mp s2 : Inv t -> (forall s, In s s1 \/ In s s2 -> (2 <= length (sw_path s))%nat) ->
    (forall s p, In s s1 \/ In s s2 -> In p (sw_path s) -> Q p) -> (forall p, In p mp -> Q p) -> leg_ok s1 mp s2 ->
    exists r t', planPathForConnection clothoid T turn t rb s1 mp s2 = Ok (r, t') /\ Inv t'.
  Proof.
    intros It H2 HQ QM L. unfold planPathForConnection.
    assert (A : exists o, (if Nat.ltb 0 (length s1) then do s <- vec_back s1; do g <- pp_outAngle s; Ok (Some (pp_end s, g))
             else if Nat.ltb 0 (length mp) then do p <- vec_at mp 0; do g <- mp_getOutAngle mp 0; Ok (Some (p, g)) else Ok None) = Ok o /\ forall x, o = Some x -> Q (fst x)).
    { destruct (Nat.ltb_spec 0 (length s1)) as [P|P].
      - destruct (exists_last (l := s1)) as (pre & s & Es); [intro Z; rewrite Z in P; simpl in P; lia|]. rewrite Es, vec_back_last. cbn [bind].
        assert (Is : In s s1) by (rewrite Es; apply in_or_app; right; left; auto).
        destruct (outAngle_ok s) as (a & ->); [apply H2; auto|]. cbn [bind]. eexists. split; [reflexivity|]. intros x Ex. injection Ex as <-.
        apply end_in; [apply H2; auto|]. intros p Hp. apply (HQ s); auto.
      - destruct s1; [|simpl in P; lia]. specialize (L (or_introl eq_refl)). destruct mp as [|x [|y mp]]; [exists None; split; [reflexivity|discriminate]|simpl in L; lia|].
        eexists. split; [cbn; reflexivity|]. intros z Ez. injection Ez as <-. apply QM. left. reflexivity. }
    destruct A as ([[p1 a1]|] & -> & QA); cbn [bind]; [|eauto]. specialize (QA _ eq_refl). cbn [fst] in QA.
    assert (B : exists o, (if Nat.ltb 0 (length s2) then do s <- vec_index s2 0; do g <- pp_inAngle s; Ok (Some (pp_start s, g))
               else if Nat.ltb 0 (length mp) then do p <- vec_at mp (length mp - 1); do g <- mp_getInAngle mp (length mp - 1); Ok (Some (p, g)) else Ok None) = Ok o /\ forall x, o = Some x -> Q (fst x)).
    { destruct (Nat.ltb_spec 0 (length s2)) as [P|P].
      - destruct (index_ok s2 0 P) as (s & -> & Is). cbn [bind]. destruct (inAngle_ok s) as (a & ->); [apply H2; auto|]. cbn [bind].
        eexists. split; [reflexivity|]. intros x Ex. injection Ex as <-. apply end_in; [apply H2; auto|]. intros p Hp. apply (HQ s); auto.
      - destruct s2; [|simpl in P; lia]. specialize (L (or_intror eq_refl)). destruct (Nat.ltb_spec 0 (length mp)) as [M|M]; [|exists None; split; [reflexivity|discriminate]].
        assert (V : forall i, (i < length mp)%nat -> exists p, vec_at mp i = Ok p).
        { intros i Hi. unfold vec_at. destruct (nth_error mp i) eqn:E; [eauto|apply nth_error_None in E; lia]. }
        destruct (V (length mp - 1)%nat ltac:(lia)) as (p & Ep). rewrite Ep. cbn [bind]. unfold mp_getInAngle. destruct (length mp - 1)%nat as [|k] eqn:Ek; [lia|].
        rewrite Ep. cbn [bind]. destruct (V k ltac:(lia)) as (p' & ->). cbn [bind]. eexists. split; [reflexivity|]. intros x Ex. injection Ex as <-.
        cbn [fst]. apply QM. unfold vec_at in Ep. destruct (nth_error mp (Datatypes.S k)) eqn:En; [|discriminate]. injection Ep as <-. eapply nth_error_In; eauto. }
    destruct B as ([[p2 a2]|] & -> & QB); cbn [bind]; [|eauto]. specialize (QB _ eq_refl). cbn [fst] in QB. apply planConnection_ok; auto.
  Qed.

  Lemma route_ok rt t : Inv t -> plannable rt -> (forall g s p, In g (r_swaths rt) -> In s g -> In p (sw_path s) -> Q p) ->
    (forall mp p, In mp (r_conns rt) -> In p mp -> Q p) -> exists r t', planPath_route clothoid T turn t rb rt = Ok (r, t') /\ Inv t'.
  Proof.
    intros It [C S L Rst] HQ QM. unfold planPath_route, r_sizeVectorSwaths, r_sizeConnections.
    assert (G : forall l path t, Inv t -> (forall i, In i l -> (i < length (r_swaths rt))%nat) ->
      exists r t', foldM (route_step clothoid T turn rb rt) l (path, t) = Ok (r, t') /\ Inv t').
    { induction l as [|i l IH]; intros path t0 It0 Hl; [cbn [foldM]; eauto|]. cbn [foldM]. pose proof (Hl i (or_introl eq_refl)) as Hi.
      assert (N : forall k, (k < length (r_swaths rt))%nat -> r_getSwaths rt k = Ok (nth k (r_swaths rt) []) /\ In (nth k (r_swaths rt) []) (r_swaths rt)).
      { intros k Hk. unfold r_getSwaths, vec_index. rewrite (nth_error_nth' (r_swaths rt) [] Hk). split; [reflexivity|apply nth_In; auto]. }
      unfold route_step at 1.
      assert (Pv : exists pv, (if Nat.ltb 0 i then r_getSwaths rt (i - 1) else Ok []) = Ok pv /\ pv = match i with O => [] | Datatypes.S k => nth k (r_swaths rt) [] end /\ forall s, In s pv -> exists g, In g (r_swaths rt) /\ In s g).
      { destruct i as [|k]; [exists []; repeat split; intros s []|]. cbn [Nat.ltb Nat.leb]. replace (Datatypes.S k - 1)%nat with k by lia.
        destruct (N k ltac:(lia)) as [-> I1]. eexists. split; [reflexivity|]. split; [reflexivity|]. intros s Hs. eauto. }
      destruct Pv as (pv & -> & Epv & Spv). cbn [bind]. destruct (index_ok (r_conns rt) i ltac:(lia)) as (mp & Emp & Imp).
      unfold r_getConnection. rewrite Emp. cbn [bind]. apply vec_index_in in Emp. destruct Emp as [_ Emp]. destruct (N i Hi) as [-> I1]. cbn [bind].
      destruct (connection_ok t0 pv mp (nth i (r_swaths rt) []) It0) as (r1 & t1 & -> & It1).
      { intros s [Hs|Hs]; [destruct (Spv s Hs) as (g0 & ? & ?); eapply S; eauto|eapply S; eauto]. }
      { intros s p [Hs|Hs] Hp; [destruct (Spv s Hs) as (g0 & ? & ?); eapply HQ; eauto|eapply HQ; eauto]. } { intros p Hp. eapply QM; eauto. } { rewrite Epv. apply L; auto. }
      cbn [bind fst snd]. rewrite append_ok. cbn [bind]. destruct (plan_swaths_ok (nth i (r_swaths rt) []) t1 It1) as (r2 & t2 & -> & It2); [intros s Hs; eapply S; eauto|intros s p Hs Hp; eapply HQ; eauto|].
      cbn [bind fst snd]. rewrite append_ok. cbn [bind]. apply IH; [exact It2|]. intros j Hj. apply Hl. right. auto. }
    destruct (G (seq 0 (length (r_swaths rt))) [] t It) as (r & t' & -> & It'); [intros i Hi; apply in_seq in Hi; lia|]. cbn [bind].
    destruct (Nat.ltb_spec (length (r_swaths rt)) (length (r_conns rt))) as [P|P]; [|eauto]. destruct (Rst P) as [NE LC].
    unfold r_getLastSwaths, r_getLastConnection. destruct (exists_last NE) as (pre & g & Eg). rewrite Eg, vec_back_last. cbn [bind].
    destruct (exists_last (l := r_conns rt)) as (cpre & c & Ec); [intro Z; rewrite Z in P; simpl in P; lia|]. rewrite Ec in LC |- *. rewrite vec_back_last. cbn [bind].
    rewrite last_last in LC.
    destruct (connection_ok t' g c [] It') as (r1 & t1 & -> & It1).
    { intros s [Hs|[]]. apply (S g); auto. rewrite Eg. apply in_or_app. right. left. auto. }
    { intros s p [Hs|[]] Hp. apply (HQ g s p); auto. rewrite Eg. apply in_or_app. right. left. auto. }
    { intros p Hp. apply (QM c p); auto. rewrite Ec. apply in_or_app. right. left. auto. } { intros _. exact LC. }
    cbn [bind fst snd]. rewrite append_ok. cbn [bind]. eauto.
  Qed.
End Defined.
