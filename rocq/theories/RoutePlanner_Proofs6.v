(** Proofs about queries on the shortest-path graph. *)
From Coq Require Import List Arith ZArith Lia Bool Permutation.
From Verif Require Import Outcome ListAux Swath_Model Graph_Model Graph_Spec Graph_Proofs2 Graph_Proofs3 Graph_Proofs4
  Graph2D_Model Graph2D_Spec Graph2D_Proofs Graph2D_Proofs2 Graph2D_Props
  RoutePlanner_Model RoutePlanner_Spec RoutePlanner_Proofs2 RoutePlanner_Proofs5.
Import ListNotations.

Section Queries.
  Context {P : Type}.
  Variable keq : P -> P -> bool.
  Variable dc : P -> P -> Z.
  Hypothesis Heq : equivalence keq.
  Let krefl : forall p, keq p p = true := proj1 Heq.
  Let ksym : forall p q, keq p q = keq q p := proj1 (proj2 Heq).
  Let ktrans : forall p q r, keq p q = true -> keq q r = true -> keq p r = true := proj2 (proj2 Heq).

  Lemma cut h p : forall l c, pt_route keq dc h l c -> pairwise_different keq l -> existsb (fun x => keq x p) l = true ->
    exists l' c' a, pt_route keq dc h l' c' /\ pairwise_different keq l' /\ hd_error l' = Some a /\ keq a p = true /\
      hd_error (rev l') = hd_error (rev l).
  Proof.
    intros l c H. induction H as [x|x y l c c' He Hr IH]; intros Hd Hex.
    - simpl in Hex. rewrite orb_false_r in Hex. exists [x], 0%Z, x. split; [constructor|]. auto.
    - cbn [existsb] in Hex. destruct (keq x p) eqn:E.
      + exists (x :: y :: l), (c + c')%Z, x. split; [constructor; auto|]. auto.
      + destruct IH as (l' & c2 & a & H1 & H2 & H3 & H4 & H5); auto.
        { inversion Hd; auto. }
        exists l', c2, a. repeat (split; auto). rewrite H5. simpl. destruct (rev l); auto.
  Qed.

  Lemma simple_route h p q : reach keq dc h p q -> exists l c a b, pt_route keq dc h l c /\ pairwise_different keq l /\
    hd_error l = Some a /\ keq a p = true /\ hd_error (rev l) = Some b /\ keq b q = true.
  Proof.
    intro H. induction H as [p q Hpq|p q r c He Hr (l & c' & a & b & HR & Hd & Ha & Ka & Hb & Kb)].
    - exists [p], 0%Z, p, p. split; [constructor|]. simpl. split; [repeat constructor|]. repeat split; auto.
    - destruct (existsb (fun x => keq x p) l) eqn:Ex.
      + destruct (cut h p l c' HR Hd Ex) as (l' & c2 & a' & H1 & H2 & H3 & H4 & H5).
        exists l', c2, a', b. rewrite H5. auto 10.
      + exists (p :: l), (c + c')%Z, p, b. destruct l as [|x l]; [discriminate|]. simpl in Ha. assert (x = a) by congruence. subst x.
        split; [constructor; auto; rewrite <- He; apply (g2_edge_congr keq dc Heq); auto|].
        split. { constructor; auto. apply Forall_forall. intros y Hy. destruct (keq p y) eqn:E; auto. exfalso.
          assert (existsb (fun x => keq x p) (a :: l) = true); [|congruence].
          apply existsb_exists. exists y. split; auto. rewrite ksym. auto. }
        split; auto. split; auto. split; auto. change (rev (p :: a :: l)) with (rev (a :: l) ++ [p]).
        destruct (rev (a :: l)); [discriminate|auto].
  Qed.

  Lemma known_length (I : list P) : forall l, pairwise_different keq l -> (forall x, In x l -> exists y, In y I /\ keq y x = true) ->
    length l <= length I.
  Proof.
    intros l Hd Hk.
    assert (X : exists ks, Forall2 (fun x k => pidx keq x I = Some k) l ks).
    { clear Hd. induction l as [|x l IH]; [exists []; constructor|].
      destruct IH as [ks Hks]; [intros; apply Hk; right; auto|].
      destruct (pidx keq x I) as [k|] eqn:E; [exists (k :: ks); constructor; auto|].
      exfalso. destruct (Hk x (or_introl eq_refl)) as (y & Hy & Ky). rewrite (pidx_None keq) in E. rewrite E in Ky; auto. discriminate. }
    destruct X as [ks HF]. rewrite (Forall2_length HF). rewrite <- (seq_length (length I) 0).
    apply NoDup_incl_length.
    - clear Hk. induction HF as [|x k l ks Hx HF IH]; [constructor|]. inversion Hd as [|? ? Hx' Hd']. subst. rewrite Forall_forall in Hx'. constructor; auto.
      intro Hin. assert (Y : exists y, In y l /\ pidx keq y I = Some k).
      { clear - HF Hin. induction HF as [|y k' l ks Hy HF IH]; [destruct Hin|]. destruct Hin as [<-|Hin]; [exists y; simpl; auto|].
        destruct (IH Hin) as (z & Hz & Ez). exists z. simpl. auto. }
      destruct Y as (y & Hy & Ey). apply pidx_Some in Hx, Ey. destruct Hx as (z & Hz & Kz), Ey as (z' & Hz' & Kz').
      assert (z' = z) by congruence. subst z'. assert (keq x y = true); [|rewrite Hx' in H; auto; discriminate].
      apply (ktrans _ z); auto. rewrite ksym. auto.
    - intros k Hk'. apply in_seq. clear - HF Hk'. induction HF as [|x k' l ks Hx HF IH]; [destruct Hk'|].
      destruct Hk' as [<-|Hk']; [|auto]. apply idx_lt in Hx. lia.
  Qed.

  Lemma edge_known h p q c : g2_edge keq dc h p q = Some c ->
    (exists x, In x (inserted h) /\ keq x p = true) /\ (exists x, In x (inserted h) /\ keq x q = true).
  Proof.
    intro H. assert (D : forall z, (exists x, In x (inserted h) /\ keq x z = true) \/ forall x, In x (inserted h) -> keq x z = false).
    { intro z. destruct (existsb (fun x => keq x z) (inserted h)) eqn:E.
      - apply existsb_exists in E. auto.
      - right. intros x Hx. destruct (keq x z) eqn:E'; auto. assert (existsb (fun x => keq x z) (inserted h) = true); [|congruence].
        apply existsb_exists. eauto. }
    split.
    - destruct (D p) as [?|N]; auto. rewrite (g2_edge_fresh keq dc) in H; [discriminate|auto].
    - destruct (D q) as [?|N]; auto. rewrite (g2_edge_fresh keq dc) in H; [discriminate|auto].
  Qed.

  Lemma edge_dist h p q c : forallb edit h = true -> g2_edge keq dc h p q = Some c ->
    exists x y, In x (inserted h) /\ In y (inserted h) /\ c = dc x y.
  Proof.
    induction h as [|o h IH] using rev_ind; intro Hed; [discriminate|].
    rewrite forallb_app in Hed. apply andb_true_iff in Hed. destruct Hed as [Hed Ho]. simpl in Ho.
    rewrite edge_snoc, inserted_app. intro H.
    assert (X : g2_edge keq dc h p q = Some c -> exists x y, In x (inserted h ++ inserted [o]) /\ In y (inserted h ++ inserted [o]) /\ c = dc x y).
    { intro E. destruct (IH Hed E) as (x & y & Hx & Hy & Ec). exists x, y. repeat split; auto; apply in_or_app; auto. }
    destruct o; simpl in Ho; try discriminate; simpl in H; match type of H with context [if ?b then _ else _] => destruct b end; auto; [|discriminate].
    exists i, j. repeat split; try (apply in_or_app; right; simpl; auto). congruence.
  Qed.

  Lemma route_cost h D l c : pt_route keq dc h l c -> (forall p q e, g2_edge keq dc h p q = Some e -> (0 <= e <= D)%Z) ->
    (0 <= D)%Z -> (c <= D * Z.of_nat (length l))%Z.
  Proof.
    intros H HD HD0. induction H as [p|p q l c c' He Hr IH]; [simpl; lia|].
    apply HD in He. cbn [length] in *. lia.
  Qed.

  Lemma route_known h l c : pt_route keq dc h l c -> length l <> 1 -> forall x, In x l -> exists y, In y (inserted h) /\ keq y x = true.
  Proof.
    intros H. induction H as [p|p q l c c' He Hr IH]; intros Hl x Hx; [simpl in Hl; lia|].
    destruct (edge_known _ _ _ _ He) as [Kp Kq]. destruct Hx as [<-|Hx]; auto.
    destruct l as [|y l]; [destruct Hx as [<-|[]]; auto|]. apply IH; auto. simpl. lia.
  Qed.

  Definition inv (h : list (g2op P)) (sg : graph2d P) : Prop :=
    exists h2, forallb is_query h2 = true /\ (forall i, In i (g2_infs h2) -> i = g2_INF) /\ g2_run keq dc (h ++ h2) = Ok sg.

  Lemma queries_edge h h2 p q : forallb is_query h2 = true -> g2_edge keq dc (h ++ h2) p q = g2_edge keq dc h p q.
  Proof.
    induction h2 as [|o h2 IH] using rev_ind; intro H; [rewrite app_nil_r; auto|].
    rewrite forallb_app in H. apply andb_true_iff in H. destruct H as [H Ho]. simpl in Ho.
    rewrite app_assoc, edge_snoc, IH by auto. destruct o; simpl in *; auto; discriminate.
  Qed.

  Lemma queries_inserted h h2 : forallb is_query h2 = true -> inserted (P := P) (h ++ h2) = inserted h.
  Proof.
    intro H. rewrite inserted_app. assert (inserted h2 = []) as ->; [|apply app_nil_r].
    unfold inserted. clear - H. induction h2 as [|o h2 IH]; auto. cbn [forallb] in H. apply andb_true_iff in H. destruct H as [Ho H].
    cbn [flat_map]. rewrite IH by auto. destruct o; simpl in *; auto; discriminate.
  Qed.

  Lemma pt_route_queries h h2 l c : forallb is_query h2 = true -> (pt_route keq dc (h ++ h2) l c <-> pt_route keq dc h l c).
  Proof.
    intro H. split; intro X; induction X as [p|p q l c c' He Hr IH]; constructor; auto.
    - rewrite queries_edge in He; auto.
    - rewrite queries_edge; auto.
  Qed.

  Lemma edits_infs h : forallb edit h = true -> g2_infs (P := P) h = [].
  Proof.
    unfold g2_infs. induction h as [|o h IH]; intro H; auto. cbn [forallb] in H. apply andb_true_iff in H. destruct H as [Ho H].
    cbn [flat_map]. rewrite IH by auto. destruct o; simpl in *; auto; discriminate.
  Qed.

  Lemma edits_two_way h : forallb edit h = true -> forallb two_way h = true /\ forallb (fun o : g2op P => negb (is_query o)) h = true.
  Proof.
    induction h as [|o h IH]; intro H; auto. cbn [forallb] in *. apply andb_true_iff in H. destruct H as [Ho H].
    destruct (IH H) as [-> ->]. destruct o; simpl in *; auto; discriminate.
  Qed.

  Lemma queries_two_way h : forallb is_query h = true -> forallb two_way h = true /\ forallb (fun o : g2op P => negb (is_removal o)) h = true.
  Proof.
    induction h as [|o h IH]; intro H; auto. cbn [forallb] in *. apply andb_true_iff in H. destruct H as [Ho H].
    destruct (IH H) as [-> ->]. destruct o; simpl in *; auto; discriminate.
  Qed.

  (** Graph made by edits only, whose edges cost at most [D], in which the given
      points are connected, with room for the longest simple route. *)
  Lemma answers_of h (I : list P) D pts : forallb edit h = true ->
    (forall x, In x (inserted h) -> In x I) ->
    (forall x y, In x I -> In y I -> (0 <= dc x y <= D)%Z) ->
    (0 <= D)%Z -> (D * Z.of_nat (length I) < g2_INF)%Z ->
    (forall p, In p pts -> exists x, In x (inserted h) /\ keq x p = true) ->
    (forall p q, In p pts -> In q pts -> reach keq dc h p q) ->
    answers keq (inv h) pts.
  Proof.
    intros Hed HI HD HD0 Hcap Hpts Hconn sg a b (h2 & Hq & Hinf & Hrun) (p & Hp & Kp) (q & Hq' & Kq).
    assert (HDe : forall x y e, g2_edge keq dc h x y = Some e -> (0 <= e <= D)%Z).
    { intros x y e He. destruct (edge_dist _ _ _ _ Hed He) as (x' & y' & Hx & Hy & ->). auto. }
    assert (HIpos : forall x y e, g2_edge keq dc h x y = Some e -> (1 <= Z.of_nat (length I))%Z).
    { intros x y e He. destruct (edge_dist _ _ _ _ Hed He) as (x' & y' & Hx & Hy & ->). apply HI in Hx. destruct I; [destruct Hx|]. simpl. lia. }
    destruct (edits_two_way h Hed) as [T1 Q1]. destruct (queries_two_way h2 Hq) as [T2 Q2].
    assert (Hins : forall z, (exists x, In x pts /\ keq x z = true) -> exists x, In x (inserted (h ++ h2)) /\ keq x z = true).
    { intros z (x & Hx & Kx). rewrite queries_inserted by auto. destruct (Hpts x Hx) as (y & Hy & Ky). exists y. split; eauto. }
    destruct (point_shortest_path P keq dc Heq h h2 sg g2_INF a b) as (g1 & g2 & path & c & A1 & A2 & A3 & A4 & A5 & A6); auto.
    { rewrite forallb_app, T1. auto. }
    { intros i Hi. unfold g2_infs in Hi. rewrite flat_map_app in Hi. apply in_app_or in Hi. destruct Hi as [Hi|Hi]; auto.
      change (In i (g2_infs h)) in Hi. rewrite edits_infs in Hi by auto. destruct Hi. }
    { unfold g2_INF. lia. }
    { intros x y e He. rewrite queries_edge in He by auto. pose proof (HDe _ _ _ He). pose proof (HIpos _ _ _ He). nia. }
    { apply Hins. eauto. }
    { apply Hins. eauto. }
    assert (Hab : reach keq dc h a b) by (eapply (reach_congr keq dc Heq); [exact Kp|exact Kq|apply Hconn; auto]).
    destruct (simple_route h a b Hab) as (l & cl & u & v & R1 & R2 & R3 & R4 & R5 & R6).
    assert (Hcl : (cl < g2_INF)%Z).
    { destruct (Nat.eq_dec (length l) 1) as [E|E].
      - destruct l as [|x [|y l]]; simpl in E; try lia. inversion R1. unfold g2_INF. lia.
      - pose proof (route_cost h D l cl R1 HDe HD0).
        assert (length l <= length I); [|nia]. apply known_length; auto. intros x Hx.
        destruct (route_known h l cl R1 E x Hx) as (y & Hy & Ky). eauto. }
    assert (Hc : (c < g2_INF)%Z).
    { assert (c <= cl)%Z; [|lia]. apply (A4 l cl u v); auto. apply pt_route_queries; auto. }
    assert (Hnext : forall o sg', is_query o = true -> (forall i, In i (g2op_infs o) -> i = g2_INF) -> g2_run_op keq dc sg o = Ok sg' -> inv h sg').
    { intros o sg' Ho Hi E. exists (h2 ++ [o]). split; [rewrite forallb_app, Hq; simpl; rewrite Ho; auto|]. split.
      - intros i. unfold g2_infs. rewrite flat_map_app. intro Hx. apply in_app_or in Hx. destruct Hx as [Hx|Hx]; auto.
        simpl in Hx. rewrite app_nil_r in Hx. auto.
      - unfold g2_run in *. rewrite app_assoc, foldM_app, Hrun. simpl. rewrite E. auto. }
    split.
    - exists g2, path. split; auto. split.
      { apply (Hnext (G2Path a b g2_INF)); auto. { simpl. intros i [<-|[]]; auto. } simpl. rewrite A2. auto. }
      split.
      { intros Hk Hpath. apply A5 in Hpath. destruct Hpath; [congruence|lia]. }
      intro Hpath. apply A6; auto.
    - exists g1, c. split; auto. apply (Hnext (G2Cost a b g2_INF)); auto. { simpl. intros i [<-|[]]; auto. } simpl. rewrite A1. auto.
  Qed.
End Queries.
