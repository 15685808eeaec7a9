(** Proofs about route objectives. *)
From Coq Require Import List Arith ZArith Lia Bool Reals Lra.
From Verif Require Import Outcome ListAux Num Swath_Model Route_Model Route_Spec Route_Proofs
  Objective_Model Objective_Spec.
Import ListNotations.
Open Scope R_scope.

Section RPProofs.
  Context {P W : Type}.
  Variable d : P.
  Variable angle : P -> P -> R.
  Variable dist : P -> P -> R.
  Notation swath := (swath P W).
  Notation len := (len dist).
  Notation cost4 := (direct_cost4 RNum dist).

  (** Distance over the seam of two polylines. *)
  Definition gap (a b : list P) : R :=
    match rev a, b with p :: _, q :: _ => dist p q | _, _ => 0 end.

  Lemma gap_snoc a p q b : gap (a ++ [p]) (q :: b) = dist p q.
  Proof. unfold gap. rewrite rev_app_distr. auto. Qed.
  Lemma gap_nil_l b : gap [] b = 0.
  Proof. auto. Qed.
  Lemma gap_nil_r a : gap a [] = 0.
  Proof. unfold gap. destruct (rev a); auto. Qed.
  Lemma gap_app_r a b c : b <> [] -> gap a (b ++ c) = gap a b.
  Proof. destruct b; [congruence|]. auto. Qed.
  Lemma gap_app_l a b c : b <> [] -> gap (a ++ b) c = gap b c.
  Proof.
    intro H. destruct (snoc_cases b) as [->|(b' & p & ->)]; [congruence|].
    destruct c; [rewrite !gap_nil_r; auto|]. rewrite app_assoc, !gap_snoc. auto.
  Qed.
  Lemma gap_last a b : a <> [] -> b <> [] -> gap a b = dist (last a d) (hd d b).
  Proof.
    intros Ha Hb. destruct (snoc_cases a) as [->|(a' & p & ->)]; [congruence|].
    destruct b; [congruence|]. rewrite gap_snoc, last_last. auto.
  Qed.

  Lemma len_cons a b l : len (a :: b :: l) = dist a b + len (b :: l).
  Proof. auto. Qed.

  Lemma len_app a b : len (a ++ b) = len a + gap a b + len b.
  Proof.
    induction a as [|p [|q a] IH].
    - simpl. rewrite gap_nil_l. lra.
    - destruct b as [|q b]; [rewrite gap_nil_r; simpl; lra|].
      change ([p] ++ q :: b) with (p :: q :: b). rewrite len_cons. unfold gap. simpl. lra.
    - change ((p :: q :: a) ++ b) with (p :: q :: (a ++ b)). rewrite !len_cons.
      change (q :: a ++ b) with ((q :: a) ++ b). rewrite IH.
      rewrite <- (gap_app_l [p] (q :: a) b) by discriminate. change ([p] ++ q :: a) with (p :: q :: a). lra.
  Qed.

  Lemma pairs_len ps : forall acc p, rp_pairs RNum dist acc p ps = acc + len (p :: ps).
  Proof.
    induction ps as [|q ps IH]; intros acc p.
    - simpl. lra.
    - rewrite len_cons. simpl rp_pairs. rewrite IH. simpl nadd. lra.
  Qed.

  Lemma points_len ps : rp_cost_points RNum dist ps = len ps.
  Proof. destruct ps as [|p ps]; auto. unfold rp_cost_points. rewrite pairs_len. simpl nofZ. lra. Qed.

  Lemma swath_len (s : swath) : rp_cost_swath RNum dist s = len (sw_path s).
  Proof. unfold rp_cost_swath. destruct (sw_path s) as [|p ps]; auto. rewrite pairs_len. simpl nofZ. lra. Qed.

  Definition long (s : swath) : Prop := (2 <= length (sw_path s))%nat.

  Lemma in_angle_ok (s : swath) : long s -> exists a, sw_getInAngle RNum angle s = Ok a.
  Proof. unfold long, sw_getInAngle. destruct (sw_path s) as [|p [|q l]]; simpl; try lia. eauto. Qed.
  Lemma out_angle_ok (s : swath) : long s -> exists a, sw_getOutAngle RNum angle s = Ok a.
  Proof.
    unfold long, sw_getOutAngle. rewrite <- rev_length. destruct (rev (sw_path s)) as [|p [|q l]]; simpl; try lia. eauto.
  Qed.
  Lemma long_ne (s : swath) : long s -> sw_path s <> [].
  Proof. unfold long. destruct (sw_path s); simpl; try lia. discriminate. Qed.

  Lemma start_hd (s : swath) : swath_startPoint d s = hd d (sw_path s).
  Proof. unfold swath_startPoint. destruct (sw_path s); auto. Qed.
  Lemma end_last (s : swath) : swath_endPoint d s = last (sw_path s) d.
  Proof.
    unfold swath_endPoint. destruct (snoc_cases (sw_path s)) as [->|(l & p & ->)]; auto.
    rewrite rev_app_distr, last_last. auto.
  Qed.

  Lemma swath_swath_gap (s t : swath) : long s -> long t ->
    rp_cost_swath_swath RNum d angle cost4 s t = Ok (gap (sw_path s) (sw_path t)).
  Proof.
    intros Hs Ht. unfold rp_cost_swath_swath. destruct (out_angle_ok s Hs) as [a ->].
    destruct (in_angle_ok t Ht) as [b ->]. cbn [bind]. unfold direct_cost4.
    rewrite start_hd, end_last, gap_last; auto using long_ne.
  Qed.

  Lemma fold_acc {A} (f : A -> R) (l : list A) : forall acc,
    fold_left (fun acc a => acc + f a) l acc = acc + rsum (map f l).
  Proof. induction l as [|a l IH]; intro acc; simpl; [lra|]. rewrite IH. lra. Qed.

  Lemma jumps_ok g : forall acc s, Forall long (s :: g) ->
    exists t, rp_jumps RNum d angle cost4 acc s g = Ok t /\
      len (flat_map sw_path (s :: g)) = t - acc + rsum (map (fun s => len (sw_path s)) (s :: g)).
  Proof.
    induction g as [|s' g IH]; intros acc s H.
    - exists acc. split; auto. simpl. rewrite app_nil_r. lra.
    - inversion H as [|? ? Hs Hg]; subst. inversion Hg as [|? ? Hs' Hg']; subst.
      cbn [rp_jumps]. rewrite swath_swath_gap by auto. cbn [bind].
      destruct (IH (acc + gap (sw_path s) (sw_path s')) s' Hg) as (t & E & L).
      exists t. split; [exact E|].
      change (flat_map sw_path (s :: s' :: g)) with (sw_path s ++ (sw_path s' ++ flat_map sw_path g)).
      rewrite len_app. change (sw_path s' ++ flat_map sw_path g) with (flat_map sw_path (s' :: g)).
      rewrite L. change (flat_map sw_path (s' :: g)) with (sw_path s' ++ flat_map sw_path g).
      rewrite gap_app_r by auto using long_ne. simpl. lra.
  Qed.

  Lemma group_len g : Forall long g -> rp_cost_swaths RNum d angle dist cost4 g = Ok (len (flat_map sw_path g)).
  Proof.
    intro H. unfold rp_cost_swaths. simpl nadd. simpl nofZ.
    assert (E : forall acc, fold_left (fun acc s => acc + rp_cost_swath RNum dist s) g acc =
      acc + rsum (map (fun s : swath => len (sw_path s)) g)).
    { intro acc. rewrite <- fold_acc. clear H. revert acc. induction g as [|s g IH]; intro acc; simpl; auto.
      rewrite IH, swath_len. auto. }
    destruct g as [|s g]; auto.
    rewrite E. destruct (jumps_ok g (0 + rsum (map (fun s => len (sw_path s)) (s :: g))) s H) as (t & Et & L).
    rewrite Et. f_equal. rewrite L. lra.
  Qed.

  Definition good (g : list swath) : Prop := g <> [] /\ Forall long g.

  Lemma good_ne g : good g -> flat_map sw_path g <> [].
  Proof.
    intros [H1 H2]. destruct g as [|s g]; [congruence|]. inversion H2; subst.
    apply long_ne in H3. simpl. destruct (sw_path s); [congruence|discriminate].
  Qed.

  Lemma mp_swaths_ok c g : good g -> rp_cost_mp_swaths RNum d angle dist c g = Ok (gap c (flat_map sw_path g)).
  Proof.
    intros [H1 H2]. destruct g as [|s g]; [congruence|]. inversion H2; subst.
    unfold rp_cost_mp_swaths, vec_index. cbn [nth_error bind]. unfold rp_cost_mp_swath.
    destruct (snoc_cases c) as [->|(c' & p & ->)]; auto.
    rewrite rev_app_distr. cbn [rev app]. unfold rp_cost_point_swath. destruct (in_angle_ok s) as [a ->]; auto.
    cbn [bind]. unfold rp_cost_ang2. f_equal.
    change (flat_map sw_path (s :: g)) with (sw_path s ++ flat_map sw_path g).
    rewrite gap_app_r by auto using long_ne. rewrite start_hd.
    rewrite gap_last; [|destruct c'; discriminate|auto using long_ne]. rewrite last_last. auto.
  Qed.

  Lemma swaths_mp_ok c g : good g -> rp_cost_swaths_mp RNum d angle dist g c = Ok (gap (flat_map sw_path g) c).
  Proof.
    intros [H1 H2]. destruct (snoc_cases g) as [->|(g' & s & ->)]; [congruence|].
    unfold rp_cost_swaths_mp. destruct c as [|p c]; [rewrite gap_nil_r; auto|].
    rewrite vec_back_snoc. cbn [bind]. unfold rp_cost_swath_mp, rp_cost_swath_point.
    rewrite Forall_app in H2. destruct H2 as [_ H2]. inversion H2; subst.
    destruct (out_angle_ok s) as [a ->]; auto. cbn [bind]. unfold rp_cost_ang1. f_equal.
    rewrite flat_map_app. simpl. rewrite app_nil_r, gap_app_l by auto using long_ne.
    rewrite end_last, gap_last; auto using long_ne. discriminate.
  Qed.

  (** What the last loop adds, by structure. *)
  Fixpoint seams (cs : list (list P)) (gs : list (list swath)) {struct gs} : R :=
    match gs, cs with
    | g :: gs, c :: cs =>
        gap c (flat_map sw_path g) +
        match cs with c' :: _ => gap (flat_map sw_path g) c' | [] => 0 end + seams cs gs
    | _, _ => 0
    end.

  Lemma nth_skipn {A} (l : list A) k x t : skipn k l = x :: t -> nth_error l k = Some x /\ skipn (S k) l = t.
  Proof.
    revert k. induction l as [|a l IH]; intros [|k] H; simpl in *; try discriminate.
    - split; congruence.
    - apply IH; auto.
  Qed.

  Lemma steps_ok r : Forall good (r_swaths r) ->
    forall gs cs k acc, skipn k (r_swaths r) = gs -> skipn k (r_conns r) = cs ->
    (length gs <= length cs)%nat ->
    foldM (rp_route_step RNum d angle dist r) (seq k (length gs)) acc = Ok (acc + seams cs gs).
  Proof.
    intros HG. induction gs as [|g gs IH]; intros cs k acc Eg Ec HL.
    - simpl. f_equal. lra.
    - destruct cs as [|c cs]; [simpl in HL; lia|].
      destruct (nth_skipn _ _ _ _ Eg) as [Ng Sg]. destruct (nth_skipn _ _ _ _ Ec) as [Nc Sc].
      assert (Hg : good g). { rewrite Forall_forall in HG. apply HG. eapply nth_error_In; eauto. }
      cbn [length seq foldM]. unfold rp_route_step at 1. unfold r_getConnection, r_getSwaths, vec_index.
      rewrite Nc, Ng. cbn [bind]. rewrite mp_swaths_ok by auto. cbn [bind].
      unfold r_sizeConnections. destruct (Nat.ltb_spec (S k) (length (r_conns r))) as [Hl|Hl].
      + destruct (nth_error (r_conns r) (S k)) as [c'|] eqn:Nc'; [|apply nth_error_None in Nc'; lia].
        cbn [bind]. rewrite swaths_mp_ok by auto. cbn [bind].
        rewrite (IH cs (S k) _ Sg Sc) by (simpl in HL; lia). f_equal.
        assert (Hc : exists t, cs = c' :: t).
        { destruct cs as [|x t]; [|destruct (nth_skipn _ _ _ _ Sc); exists t; congruence].
          exfalso. assert (L : length (skipn (S k) (r_conns r)) = 0%nat) by (rewrite Sc; auto).
          rewrite skipn_length in L. lia. }
        destruct Hc as [t ->]. cbn [seams]. simpl nadd. lra.
      + cbn [bind]. assert (Hnil : cs = []).
        { destruct cs; auto. assert (L : length (skipn (S k) (r_conns r)) = S (length cs)) by (rewrite Sc; auto).
          rewrite skipn_length in L. lia. }
        rewrite Hnil in *. simpl in HL. destruct gs; [|simpl in HL; lia]. cbn [length seq foldM seams]. f_equal. simpl nadd; simpl seams; lra.
  Qed.

  Lemma seams_exact : forall gs cs, Forall good gs -> (length gs <= length cs <= S (length gs))%nat ->
    forall c, match cs with c0 :: cs' => c0 = c | [] => gs = [] /\ c = [] end ->
    len (c ++ weave (tl cs) gs) =
      rsum (map len cs) + rsum (map (fun g => len (flat_map sw_path g)) gs) + seams cs gs + missed dist d gs cs.
  Proof.
    induction gs as [|g gs IH]; intros cs HF HL c Hc.
    - destruct cs as [|c0 [|? ?]]; simpl in HL; try lia.
      + destruct Hc as [_ ->]. simpl. lra.
      + subst c0. simpl. rewrite app_nil_r. lra.
    - inversion HF as [|? ? Hg HF']; subst. destruct cs as [|c0 cs]; [simpl in HL; lia|]. subst c0. simpl tl.
      pose proof (good_ne g Hg) as NE.
      cbn [weave]. rewrite len_app. rewrite gap_app_r by auto. rewrite len_app.
      destruct cs as [|c1 cs].
      + destruct gs; [|simpl in HL; lia]. cbn [app tl weave]. rewrite gap_nil_r. simpl. lra.
      + rewrite (IH (c1 :: cs) HF') by (simpl in HL |- *; first [reflexivity|lia]).
        cbn [map rsum fold_right seams missed]. fold (rsum (map len cs)).
        fold (rsum (map (fun g => len (flat_map sw_path g)) gs)).
        assert (HJ : gap (flat_map sw_path g) (c1 ++ weave (tl (c1 :: cs)) gs) =
           gap (flat_map sw_path g) c1 +
           match gs with [] => 0 | g' :: _ => match c1 with [] => dist (last (flat_map sw_path g) d) (hd d (flat_map sw_path g')) | _ => 0 end end).
        { destruct c1 as [|p c1].
          - cbn [app tl]. rewrite gap_nil_r. destruct gs as [|g' gs]; [simpl; rewrite gap_nil_r; lra|].
            inversion HF'; subst. cbn [weave]. rewrite gap_app_r by auto using good_ne.
            rewrite gap_last by auto using good_ne. lra.
          - rewrite gap_app_r by discriminate. destruct gs; lra. }
        rewrite HJ. change (missed dist d (g :: gs) (c :: c1 :: cs)) with
          (match gs with [] => 0 | g' :: _ =>
             match c1 with [] => dist (last (flat_map sw_path g) d) (hd d (flat_map sw_path g')) | _ :: _ => 0 end
             + missed dist d gs (c1 :: cs) end).
        destruct gs; simpl; lra.
  Qed.

  Lemma route_cost_exact r : shape r -> Forall good (r_swaths r) ->
    exists c, rp_cost_route RNum d angle dist cost4 r = Ok c /\
      len (line_of r) = c + missed dist d (r_swaths r) (r_conns r).
  Proof.
    intros HS HG. unfold rp_cost_route.
    assert (E1 : forall v acc, Forall good v ->
      foldM (fun acc g => do c <- rp_cost_swaths RNum d angle dist cost4 g; Ok (nadd RNum acc c)) v acc
      = Ok (acc + rsum (map (fun g => len (flat_map sw_path g)) v))).
    { induction v as [|g v IH]; intros acc H.
      - cbn. f_equal. lra.
      - inversion H as [|? ? [_ Hl] Hv]; subst. cbn [foldM]. rewrite group_len by auto. cbn [bind].
        rewrite IH by auto. simpl. f_equal. lra. }
    rewrite E1 by auto. cbn [bind].
    assert (E2 : forall v acc, fold_left (fun acc c => nadd RNum acc (rp_cost_points RNum dist c)) v acc = acc + rsum (map len v)).
    { induction v as [|c v IH]; intro acc; [simpl; lra|]. cbn [fold_left]. rewrite IH, points_len. simpl. lra. }
    rewrite E2. unfold r_sizeVectorSwaths.
    rewrite (steps_ok r HG (r_swaths r) (r_conns r) 0) by (auto; apply HS).
    eexists. split; [reflexivity|].
    unfold shape in HS.
    destruct (r_conns r) as [|c cs] eqn:Ec.
    - destruct (r_swaths r) eqn:Eg; [|simpl in HS; lia]. unfold line_of. rewrite Ec, Eg. simpl. lra.
    - pose proof (seams_exact (r_swaths r) (c :: cs) HG HS c eq_refl) as E. simpl tl in E.
      unfold line_of. rewrite Ec, E. simpl nofZ. lra.
  Qed.

  Lemma missed_zero (r : route P W) : inner_connected r -> missed dist d (r_swaths r) (r_conns r) = 0.
  Proof.
    unfold inner_connected. generalize (r_conns r). generalize (r_swaths r). clear.
    induction l as [|g gs IH]; intros cs H; auto.
    destruct gs as [|g' gs]; auto. destruct cs as [|c [|c' cs]]; auto.
    cbn [missed]. assert (Hc : c' <> []) by (apply (H 1%nat); simpl; auto; lia).
    destruct c' as [|x c']; [congruence|].
    change (0 + missed dist d (g' :: gs) ((x :: c') :: cs) = 0). rewrite IH; [lra|].
    intros i c0 Hi Hn. apply (H (S i)); simpl in *; auto; lia.
  Qed.

  Lemma missed_pos (r : route P W) : (forall a b, 0 <= dist a b) -> 0 <= missed dist d (r_swaths r) (r_conns r).
  Proof.
    intro HD. generalize (r_conns r). generalize (r_swaths r). clear r.
    induction l as [|g gs IH]; intros cs; simpl; [lra|].
    destruct gs as [|g' gs]; [simpl; lra|]. destruct cs as [|c [|c' cs]]; try lra.
    specialize (IH (c' :: cs)). destruct c'; [|lra].
    specialize (HD (last (flat_map sw_path g) d) (hd d (flat_map sw_path g'))). lra.
  Qed.
End RPProofs.
