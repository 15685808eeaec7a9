(** Proofs about the connections of a planned route. *)
From Coq Require Import List Arith ZArith Lia Bool Permutation.
From Verif Require Import Outcome ListAux Swath_Model Graph_Model Graph_Spec Graph_Proofs2 Graph_Proofs4 Graph2D_Model Graph2D_Spec
  Graph2D_Proofs Graph2D_Props Graph2D_Props2 Route_Model Route_Proofs RoutePlanner_Model RoutePlanner_Spec RoutePlanner_Spec2
  RoutePlanner_Spec3 RoutePlanner_Proofs2 RoutePlanner_Proofs3 RoutePlanner_Proofs4 RoutePlanner_Proofs5 RoutePlanner_Proofs6.
Import ListNotations.

Section Answers.
  Context {P : Type}.
  Variable keq : P -> P -> bool.
  Variable dc : P -> P -> Z.
  Hypothesis Heq : equivalence keq.
  Let krefl : forall p, keq p p = true := proj1 Heq.
  Let ksym : forall p q, keq p q = keq q p := proj1 (proj2 Heq).
  Let ktrans : forall p q r, keq p q = true -> keq q r = true -> keq p r = true := proj2 (proj2 Heq).

  Lemma path_inserted h sg a b sg' w : g2_run keq dc h = Ok sg -> g2_shortestPath keq sg a b g2_INF = Ok (sg', w) ->
    incl w (inserted h).
  Proof.
    intros R E. destruct (linked_inserted keq dc Heq h sg R) as (pts & h' & (HR & _) & HI).
    unfold g2_shortestPath in E. bok E. bok E. bok E. bok E. injection E as _ <-.
    apply mapM_ok in E3. intros x Hx. apply HI. apply In_nth_error in Hx. destruct Hx as [m Hx].
    destruct (Forall2_nth _ _ _ E3 m x Hx) as (k & _ & Hk).
    change (g2_indexToNode sg k = Ok x) in Hk. rewrite (indexToNode_rep keq pts sg k HR) in Hk.
    destruct (nth_error pts k) as [y|] eqn:Ey; [|discriminate]. injection Hk as ->. eapply nth_error_In; eauto.
  Qed.

  Lemma ways_of h (I : list P) D pts : forallb edit h = true ->
    (forall x, In x (inserted h) -> In x I) ->
    (forall x y, In x I -> In y I -> (0 <= dc x y <= D)%Z) ->
    (0 <= D)%Z -> (D * Z.of_nat (length I) < g2_INF)%Z ->
    (forall p, In p pts -> exists x, In x (inserted h) /\ keq x p = true) ->
    (forall p q, In p pts -> In q pts -> reach keq dc h p q) ->
    forall sg a b sg' w, inv keq dc h sg ->
    (exists p, In p pts /\ keq p a = true) -> (exists p, In p pts /\ keq p b = true) ->
    g2_shortestPath keq sg a b g2_INF = Ok (sg', w) -> inv keq dc h sg' /\ way keq dc h a b w.
  Proof.
    intros Hed HI HD HD0 Hcap Hpts Hconn sg a b sg' w (h2 & Hq & Hinf & Hrun) (p & Hp & Kp) (q & Hq' & Kq) EC.
    assert (HDe : forall x y e, g2_edge keq dc h x y = Some e -> (0 <= e <= D)%Z).
    { intros x y e He. destruct (edge_dist keq dc _ _ _ _ Hed He) as (x' & y' & Hx & Hy & ->). auto. }
    assert (HIpos : forall x y e, g2_edge keq dc h x y = Some e -> (1 <= Z.of_nat (length I))%Z).
    { intros x y e He. destruct (edge_dist keq dc _ _ _ _ Hed He) as (x' & y' & Hx & Hy & ->). apply HI in Hx. destruct I; [destruct Hx|]. simpl. lia. }
    destruct (edits_two_way h Hed) as [T1 Q1]. destruct (queries_two_way h2 Hq) as [T2 Q2].
    assert (Hins : forall z, (exists x, In x pts /\ keq x z = true) -> exists x, In x (inserted (h ++ h2)) /\ keq x z = true).
    { intros z (x & Hx & Kx). rewrite queries_inserted by auto. destruct (Hpts x Hx) as (y & Hy & Ky). exists y. split; eauto. }
    pose proof (path_inserted _ _ _ _ _ _ Hrun EC) as Hincl. rewrite queries_inserted in Hincl by auto.
    destruct (point_shortest_path P keq dc Heq h h2 sg g2_INF a b) as (g1 & g2 & path & c & A1 & A2 & A3 & A4 & A5 & A6); auto.
    { rewrite forallb_app, T1. auto. }
    { intros i Hi. unfold g2_infs in Hi. rewrite flat_map_app in Hi. apply in_app_or in Hi. destruct Hi as [Hi|Hi]; auto.
      change (In i (g2_infs h)) in Hi. rewrite edits_infs in Hi by auto. destruct Hi. }
    { unfold g2_INF. lia. }
    { intros x y e He. rewrite queries_edge in He by auto. pose proof (HDe _ _ _ He). pose proof (HIpos _ _ _ He). nia. }
    { apply Hins. eauto. }
    { apply Hins. eauto. }
    assert (X : (g2, path) = (sg', w)) by congruence. injection X as -> ->.
    assert (Hab : reach keq dc h a b) by (eapply (reach_congr keq dc Heq); [exact Kp|exact Kq|apply Hconn; auto]).
    destruct (simple_route keq dc Heq h a b Hab) as (l & cl & u & v & R1 & R2 & R3 & R4 & R5 & R6).
    assert (Hcl : (cl < g2_INF)%Z).
    { destruct (Nat.eq_dec (length l) 1) as [E|E].
      - destruct l as [|x [|y l]]; simpl in E; try lia. inversion R1. unfold g2_INF. lia.
      - pose proof (route_cost keq dc h D l cl R1 HDe HD0).
        assert (length l <= length I); [|nia]. apply (known_length keq Heq); auto. intros x Hx.
        destruct (route_known keq dc h l cl R1 E x Hx) as (y & Hy & Ky). eauto. }
    assert (Hc : (c < g2_INF)%Z).
    { assert (c <= cl)%Z; [|lia]. apply (A4 l cl u v); auto. apply pt_route_queries; auto. }
    split.
    - exists (h2 ++ [G2Path a b g2_INF]). split; [rewrite forallb_app, Hq; reflexivity|]. split.
      + intros i. unfold g2_infs. rewrite flat_map_app. intro Hx. apply in_app_or in Hx. destruct Hx as [Hx|Hx]; auto.
        simpl in Hx. destruct Hx as [<-|[]]. auto.
      + unfold g2_run in *. rewrite app_assoc, foldM_app, Hrun. cbn [foldM bind g2_run_op]. rewrite EC. reflexivity.
    - destruct (keq a b) eqn:Kab; [left; split; auto; apply A5; auto|right]. split; auto. split; auto.
      assert (Hw : w <> []) by (intro Z; apply A5 in Z; destruct Z as [Z|Z]; [congruence|lia]).
      destruct (A6 Hw) as (B1 & p1 & q1 & B2 & B3 & B4 & B5). apply pt_route_queries in B1; auto.
      exists c, p1, q1. split; [exact B1|]. split; [exact B2|]. split; [exact B3|]. split; [exact B4|]. split; [exact B5|].
      split; [exists w, p1, q1; auto|].
      intros l' c' p' q' X1 X2 X3 X4 X5. destruct (Z_lt_ge_dec c' g2_INF) as [Y|Y]; [|lia].
      apply (A4 l' c' p' q'); auto. apply pt_route_queries; auto.
  Qed.
End Answers.

Section Legs.
  Context {P W : Type}.
  Variable p_default : P.
  Variable w_nonpos : W -> bool.
  Variable w_zero : W.
  Variable wkt : P -> P.
  Variable keq : P -> P -> bool.
  Variable mid : P -> P -> P.
  Hypothesis Heq : equivalence keq.
  Let krefl : forall p, keq p p = true := proj1 Heq.
  Let ksym : forall p q, keq p q = keq q p := proj1 (proj2 Heq).
  Let ktrans : forall p q r, keq p q = true -> keq q r = true -> keq p r = true := proj2 (proj2 Heq).
  Notation swath := (swath P W).
  Notation first := (first_pt p_default).
  Notation final := (last_pt p_default).
  Variable ss : list swath.
  Hypothesis Hwidth : Forall (fun s => w_nonpos (sw_width s) = false) ss.
  Hypothesis Hpath : Forall (fun s => sw_path s <> []) ss.
  Hypothesis Hwkt : Forall (fun s => keq (wkt (first s)) (first s) = true /\ keq (wkt (final s)) (final s) = true) ss.
  Variable rse : option P.
  Hypothesis Hrse : forall p s, rse = Some p -> In s ss -> keq p (first s) = false /\ keq p (final s) = false.
  Notation known := (known p_default keq ss rse).

  Variable Inv : graph2d P -> Prop.
  Variable Way : P -> P -> list P -> Prop.
  Hypothesis HQ : forall sg a b sg' w, Inv sg -> known a -> known b ->
    g2_shortestPath keq sg a b g2_INF = Ok (sg', w) -> Inv sg' /\ Way a b w.
  Hypothesis HW1 : forall a b w, Way a b w -> keq a b = true -> w = [].
  Hypothesis HW2 : forall a b w, Way a b w -> keq a b = false -> exists q, hd_error (rev w) = Some q /\ keq q b = true.

  (** Appending to the legs. *)
  Fixpoint stop_of (from : P) (cs : list swath) : P :=
    match cs with [] => from | c :: cs => stop_of (final c) cs end.

  Lemma legs_snoc : forall cs from ws d w, legs p_default Way None from cs ws -> Way (stop_of from cs) (first d) w ->
    legs p_default Way None from (cs ++ [d]) (ws ++ [w]).
  Proof.
    induction cs as [|c cs IH]; intros from [|w0 ws] d w HL Hw; simpl in *; try contradiction; try (destruct ws; contradiction); auto.
    destruct HL as [H1 H2]. split; auto.
  Qed.

  Lemma legs_close p : forall cs from ws w, legs p_default Way None from cs ws -> Way (stop_of from cs) p w ->
    legs p_default Way (Some p) from cs (ws ++ [w]).
  Proof.
    induction cs as [|c cs IH]; intros from [|w0 ws] w HL Hw; simpl in *; try contradiction; try (destruct ws; contradiction); auto.
    destruct HL as [H1 H2]. split; auto.
  Qed.

  Lemma legs_length : forall (cs : list swath) from ws, legs p_default Way None from cs ws -> length ws = length cs.
  Proof.
    induction cs as [|c cs IH]; intros from [|w0 ws] HL; simpl in *; try contradiction; try (destruct ws; contradiction); auto.
    destruct HL as [H1 H2]. rewrite (IH _ _ H2). auto.
  Qed.

  Lemma stop_last_of : forall (cs : list swath) from d, stop_of from (cs ++ [d]) = final d.
  Proof. induction cs as [|c cs IH]; intros; simpl; auto. Qed.

  (** ** The swaths that are added *)
  Definition cand (c : swath) : Prop := sw_path c <> [] /\ known (first c) /\ known (final c) /\
    (forall p, rse = Some p -> keq p (first c) = false).

  Lemma drive_cand s back : In s ss -> cand (drive wkt s back).
  Proof.
    intro Hs. apply In_nth_error in Hs as Hk. destruct Hk as [k Ek].
    destruct (drive_known p_default wkt keq mid Heq ss Hpath Hwkt rse k s back Ek) as (A & B & C & _).
    split; auto. split; auto. split; auto. intros p Hp. destruct (Hrse p s Hp Hs) as [F1 F2].
    rewrite Forall_forall in Hpath, Hwkt. specialize (Hpath s Hs). destruct (Hwkt s Hs) as [K1 K2].
    destruct (keq p (first (drive wkt s back))) eqn:E; auto. exfalso. destruct back; unfold drive in E.
    - destruct (rev_first p_default (copy wkt s)) as [Z _]; [simpl; destruct (sw_path s); simpl; congruence|].
      rewrite Z, copy_final in E by auto. rewrite (ktrans _ _ _ E K2) in F2. discriminate.
    - rewrite copy_first in E by auto. rewrite (ktrans _ _ _ E K1) in F1. discriminate.
  Qed.

  Lemma find_cand p_s p_e : forall l c, incl l ss -> find_swath p_default w_nonpos w_zero wkt keq p_s p_e l = Ok (Some c) -> cand c.
  Proof.
    induction l as [|s l IH]; intros c Hi E; cbn [find_swath] in E; [discriminate|]. bok E. destruct r as [c'|].
    - injection E as ->. unfold match_swath in E0. rewrite Forall_forall in Hwidth.
      rewrite clone_copy in E0 by (apply Hwidth, Hi; left; auto). cbn [bind] in E0.
      destruct (_ && _); [injection E0 as <-; apply (drive_cand s false); apply Hi; left; auto|].
      destruct (_ && _); [injection E0 as <-; apply (drive_cand s true); apply Hi; left; auto|discriminate].
    - apply (IH c); auto. intros x Hx. apply Hi. right. auto.
  Qed.

  (** ** Routes under construction *)
  Definition growing (r : route P W) : Prop := r = r_empty \/ exists c cs w ws,
    r = mkRoute (map (fun c => [c]) (c :: cs)) (w :: ws) /\ Forall cand (c :: cs) /\
    (match rse with Some p => Way p (first c) w | None => w = [] end) /\ legs p_default Way None (final c) cs ws.

  Lemma growing_end c cs w ws : length ws = length cs ->
    r_endPoint p_default (mkRoute (map (fun c => [c]) (c :: cs)) (w :: ws)) = Ok (stop_of (final c) cs).
  Proof.
    intro HL. unfold r_endPoint, r_sizeConnections, r_sizeVectorSwaths. cbn [r_swaths r_conns].
    rewrite map_length. cbn [length]. rewrite HL, Nat.ltb_irrefl. cbn [bind andb].
    destruct (snoc_cases (c :: cs)) as [Z|(l & d & Z)]; [discriminate|]. rewrite Z, map_app. cbn [map].
    rewrite vec_back_snoc. cbn [bind length Nat.ltb Nat.leb andb]. cbn. rewrite stop_last. f_equal.
    destruct l as [|x l]; simpl in Z; injection Z as -> ->; [reflexivity|]. rewrite stop_last_of. auto.
  Qed.

  Lemma known_stop c cs : Forall cand (c :: cs) -> known (stop_of (final c) cs).
  Proof.
    intro H. assert (G : forall l f, known f -> Forall cand l -> known (stop_of f l)).
    { induction l as [|x l IH]; intros f Hf Hl; simpl; auto. inversion Hl; subst. apply IH; auto. apply H2. }
    inversion H; subst. apply G; auto. apply H2.
  Qed.

  Lemma add_step r sg c r' sg' : growing r -> Inv sg -> cand c ->
    add_to_route p_default keq rse (r, sg) c = Ok (r', sg') -> growing r' /\ Inv sg' /\ r_swaths r' <> [].
  Proof.
    intros G HI Hc E. unfold add_to_route in E. cbn [fst snd] in E. destruct G as [->|(c0 & cs & w & ws & -> & HF & H0 & HL)].
    - change (r_isEmpty (@r_empty P W)) with true in E. cbv iota in E. destruct Hc as (C1 & C2 & C3 & C4).
      assert (Hcase : (exists p, rse = Some p) \/ rse = None) by (generalize rse; intros [p|]; eauto).
      destruct Hcase as [[p Erse]|Erse]; rewrite Erse in E.
      + bok E. bok E0. bok E0. injection E0 as <-. cbn [fst snd] in E. rewrite start_first in E1.
        assert (Kp : known p) by (exists p; split; [apply in_or_app; left; rewrite Erse; simpl; auto|apply krefl]).
        destruct r0 as [sg1 w]. cbn [fst snd] in *. destruct (HQ _ _ _ _ _ HI Kp C2 E1) as [HI1 Hw].
        change (@r_empty P W) with (@mkRoute P W [] []) in E2. rewrite add_points_new in E2 by auto. injection E2 as <-.
        destruct (HW2 _ _ _ Hw (C4 p Erse)) as (q & Hq & Kq).
        unfold r_addSwath_graph in E. cbn [r_isEmpty r_swaths r_conns app] in E. bok E.
        assert (r = q).
        { unfold r_endPoint, r_sizeConnections, r_sizeVectorSwaths in E0. cbn [r_swaths r_conns length Nat.ltb Nat.leb] in E0.
          unfold vec_back in E0. cbn [rev app bind andb] in E0. destruct w as [|w0 w]; [discriminate|].
          cbn [length Nat.ltb Nat.leb] in E0. unfold mp_last in E0. destruct (rev (w0 :: w)); simpl in Hq; congruence. }
        subst r. bok E. rewrite start_first in E2.
        assert (Kn : known q) by (destruct C2 as (x & Hx & Ex); exists x; split; auto; apply (ktrans _ _ _ Ex); rewrite ksym; auto).
        destruct r as [sg2 w2]. cbn [fst snd] in E. destruct (HQ _ _ _ _ _ HI1 Kn C2 E2) as [HI2 Hw2].
        apply HW1 in Hw2; auto. subst w2. bok E.
        change [w] with ([] ++ [w]) in E3. rewrite add_points_open in E3 by auto. rewrite app_nil_r in E3. injection E3 as <-.
        change [w] with ([] ++ [w]) in E. rewrite (add_swath_open [] [] w c) in E by auto. cbn [bind] in E. injection E as <- <-.
        split; [|split; [auto|discriminate]]. right. exists c, [], w, []. rewrite Erse. simpl. repeat split; auto.
        constructor; auto. repeat split; auto.
      + cbn [bind fst snd] in E. unfold r_addSwath_graph in E. change (r_isEmpty (@r_empty P W)) with true in E. cbv iota in E.
        bok E. assert (r = mkRoute [[c]] [[]]) by (symmetry in E0; cbv in E0; congruence). injection E as <- <-. subst r.
        split; [|split; [auto|discriminate]]. right. exists c, [], [], []. rewrite Erse. simpl. repeat split; auto.
        constructor; auto. repeat split; auto.
    - assert (E' : r_addSwath_graph p_default keq (mkRoute (map (fun c => [c]) (c0 :: cs)) (w :: ws)) c sg = Ok (r', sg')).
      { destruct rse; cbn in E; exact E. }
      clear E. unfold r_addSwath_graph in E'. cbn [r_isEmpty r_swaths map] in E'.
      pose proof (legs_length _ _ _ HL) as Hlen. destruct Hc as (C1 & C2 & C3 & C4).
      change ([c0] :: map (fun c => [c]) cs) with (map (fun c : swath => [c]) (c0 :: cs)) in E'.
      rewrite (growing_end c0 cs w ws Hlen) in E'. cbn [bind] in E'. bok E'. rewrite start_first in E.
      destruct r as [sg1 w1]. cbn [fst snd] in E'. destruct (HQ _ _ _ _ _ HI (known_stop c0 cs HF) C2 E) as [HI1 Hw1].
      rewrite add_points_new in E' by (rewrite map_length; simpl; lia). cbn [bind] in E'.
      rewrite add_swath_open in E' by (rewrite map_length; simpl; lia). cbn [bind] in E'. injection E' as <- <-.
      split; [|split; [auto|simpl; destruct (map _ cs); discriminate]]. right. exists c0, (cs ++ [c]), w, (ws ++ [w1]).
      split; [simpl; rewrite map_app; auto|]. split; [|split; [auto|apply legs_snoc; auto]].
      change (c0 :: cs ++ [c]) with ((c0 :: cs) ++ [c]). apply Forall_app. split; auto. constructor; auto. repeat split; auto.
  Qed.

  Lemma transform_legs ids sbc g sg r sg2 : concat sbc = ss -> Inv sg ->
    transformSolutionToRoute p_default w_nonpos w_zero wkt keq rse ids sbc g sg = Ok (r, sg2) ->
    r_swaths r <> [] -> exists cs, r_swaths r = map (fun c => [c]) cs /\ linked_by p_default Way rse cs (r_conns r).
  Proof.
    intros Hss HI E Hne. unfold transformSolutionToRoute in E. rewrite Hss in E. bok E. destruct r0 as [r0 sg0].
    assert (G : growing r0 /\ Inv sg0).
    { refine (foldM_inv _ (fun x => growing (fst x) /\ Inv (snd x)) _ _ (r_empty, sg) (r0, sg0) _ E0); [|split; [left; auto|auto]].
      intros [r1 sg1] i [r3 sg3] [G1 G2] Es. cbn [fst snd] in *. unfold transform_step in Es. bok Es. bok Es. bok Es. bok Es. bok Es.
      destruct r8 as [c|] || destruct r7 as [c|] || destruct r6 as [c|].
      all: try (injection Es as <- <-; auto; fail).
      all: destruct (add_step r1 sg1 c r3 sg3 G1 G2) as (A & B & _); auto.
      all: eapply find_cand; [|eassumption]; apply incl_refl. }
    destruct G as [G HI0]. cbn [fst snd] in E.
    assert (Hcase : (exists p, rse = Some p) \/ rse = None) by (generalize rse; intros [p|]; eauto).
    destruct Hcase as [[p Erse]|Erse]; rewrite Erse in E.
    - bok E. bok E. bok E. injection E as <- _. destruct G as [->|(c0 & cs & w & ws & -> & HF & H0 & HL)].
      + change (@r_empty P W) with (@mkRoute P W [] []) in E3. rewrite add_points_new in E3 by auto. injection E3 as <-. contradiction.
      + pose proof (legs_length _ _ _ HL) as Hlen. rewrite (growing_end c0 cs w ws Hlen) in E1. injection E1 as <-.
        assert (Kp : known p) by (exists p; split; [apply in_or_app; left; rewrite Erse; simpl; auto|apply krefl]).
        destruct r2 as [sg1 w1]. cbn [fst snd] in *. destruct (HQ _ _ _ _ _ HI0 (known_stop c0 cs HF) Kp E2) as [HI1 Hw1].
        rewrite add_points_new in E3 by (rewrite map_length; simpl; lia). injection E3 as <-.
        exists (c0 :: cs). split; auto. cbn [r_conns app linked_by]. rewrite Erse in *. split; auto. apply legs_close; auto.
    - injection E as <- _. destruct G as [->|(c0 & cs & w & ws & -> & HF & H0 & HL)]; [contradiction|].
      exists (c0 :: cs). split; auto. cbn [r_conns linked_by]. rewrite Erse in *. auto.
  Qed.
End Legs.
