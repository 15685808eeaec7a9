(** Proofs about the conversion of tours to routes, third part. *)
From Coq Require Import List Arith ZArith Lia Bool Permutation.
From Verif Require Import Outcome ListAux Swath_Model Graph_Model Graph_Spec Graph_Proofs2 Graph_Proofs3 Graph_Proofs4
  Graph2D_Model Graph2D_Spec Graph2D_Proofs Graph2D_Proofs2 Graph2D_Props Route_Model Route_Spec Route_Proofs
  RoutePlanner_Model RoutePlanner_Spec RoutePlanner_Proofs RoutePlanner_Proofs2.
Import ListNotations.

Section Convert.
  Context {P W : Type}.
  Variable p_default : P.
  Variable w_nonpos : W -> bool.
  Variable w_zero : W.
  Variable wkt : P -> P.
  Variable keq : P -> P -> bool.
  Variable mid : P -> P -> P.
  Hypothesis Heq : equivalence keq.
  Notation swath := (swath P W).
  Notation first := (first_pt p_default).
  Notation final := (last_pt p_default).
  Let krefl : forall p, keq p p = true := proj1 Heq.
  Let ksym : forall p q, keq p q = keq q p := proj1 (proj2 Heq).
  Let ktrans : forall p q r, keq p q = true -> keq q r = true -> keq p r = true := proj2 (proj2 Heq).

  (** ** Matching one swath *)
  Definition copy (s : swath) : swath := mkSwath P W (sw_id s) (map wkt (sw_path s)) (sw_width s) (sw_dir s) MAINLAND.

  Lemma clone_copy s : w_nonpos (sw_width s) = false -> swath_clone w_nonpos w_zero wkt s = Ok (copy s).
  Proof.
    intro H. unfold swath_clone, swath_new, swath_setWidth. rewrite H. cbn [bind]. auto.
  Qed.

  Lemma copy_first s : sw_path s <> [] -> first (copy s) = wkt (first s).
  Proof. unfold first_pt. simpl. destruct (sw_path s); simpl; congruence. Qed.

  Lemma copy_final s : sw_path s <> [] -> final (copy s) = wkt (final s).
  Proof.
    unfold last_pt. simpl. destruct (snoc_cases (sw_path s)) as [->|(l & a & ->)]; [congruence|].
    intros _. rewrite map_app. simpl. rewrite !last_last. auto.
  Qed.

  Definition drive (s : swath) (b : bool) : swath := if b then swath_reverse (copy s) else copy s.

  Lemma rev_first (s : swath) : sw_path s <> [] -> first (swath_reverse s) = final s /\ final (swath_reverse s) = first s.
  Proof.
    unfold first_pt, last_pt. simpl. destruct (snoc_cases (sw_path s)) as [->|(l & a & ->)]; [congruence|].
    intros _. rewrite rev_app_distr, last_last. simpl app. split; auto.
    destruct l as [|y l]; [reflexivity|]. change (a :: rev (y :: l)) with ((a :: rev l) ++ [y]). rewrite last_last. auto.
  Qed.

  Variable ss : list swath.
  Let n := length ss.
  Notation pt := (pt p_default mid ss).
  Hypothesis Hinj : forall l l', fst l < n -> fst l' < n -> keq (pt l) (pt l') = true -> l = l'.
  Hypothesis Hwidth : Forall (fun s => w_nonpos (sw_width s) = false) ss.
  Hypothesis Hpath : Forall (fun s => sw_path s <> []) ss.
  Hypothesis Hwkt : Forall (fun s => keq (wkt (first s)) (first s) = true /\ keq (wkt (final s)) (final s) = true) ss.

  Lemma keq_lbl p l l' : fst l < n -> fst l' < n -> keq (pt l) p = true -> forall q, keq q (pt l') = true ->
    (keq p q = true <-> l = l').
  Proof.
    intros Hl Hl' H q Hq. split.
    - intro E. apply Hinj; auto. apply (ktrans _ p); auto. apply (ktrans _ q); auto.
    - intros ->. apply (ktrans _ (pt l')); rewrite ksym; auto.
  Qed.

  Lemma match_lbl p_s p_e a b k s : nth_error ss k = Some s ->
    fst a < n -> fst b < n -> keq (pt a) p_s = true -> keq (pt b) p_e = true -> 
    ((a = (k, KStart) /\ b = (k, KEnd)) /\ match_swath p_default w_nonpos w_zero wkt keq p_s p_e s = Ok (Some (drive s false))) \/
    ((a = (k, KEnd) /\ b = (k, KStart)) /\ match_swath p_default w_nonpos w_zero wkt keq p_s p_e s = Ok (Some (drive s true))) \/
    (~ (a = (k, KStart) /\ b = (k, KEnd)) /\ ~ (a = (k, KEnd) /\ b = (k, KStart)) /\ match_swath p_default w_nonpos w_zero wkt keq p_s p_e s = Ok None).
  Proof.
    intros Ek Ha Hb Ea Eb. assert (Hin : In s ss) by (eapply nth_error_In; eauto).
    rewrite Forall_forall in Hwidth, Hpath, Hwkt. specialize (Hwkt s Hin). destruct Hwkt as [W1 W2].
    assert (Hk : k < n) by (apply nth_error_Some; congruence).
    unfold match_swath. rewrite clone_copy by auto. cbn [bind].
    rewrite start_first, stop_last, copy_first, copy_final by auto.
    assert (Q1 : keq (wkt (first s)) (pt (k, KStart)) = true) by (unfold RoutePlanner_Proofs2.pt; simpl; rewrite Ek; auto).
    assert (Q2 : keq (wkt (final s)) (pt (k, KEnd)) = true) by (unfold RoutePlanner_Proofs2.pt; simpl; rewrite Ek; auto).
    pose proof (keq_lbl p_s a (k, KStart) Ha Hk Ea _ Q1) as S1.
    pose proof (keq_lbl p_e b (k, KEnd) Hb Hk Eb _ Q2) as S2.
    pose proof (keq_lbl p_e b (k, KStart) Hb Hk Eb _ Q1) as S3.
    pose proof (keq_lbl p_s a (k, KEnd) Ha Hk Ea _ Q2) as S4.
    destruct (keq p_s (wkt (first s))) eqn:B1, (keq p_e (wkt (final s))) eqn:B2, (keq p_e (wkt (first s))) eqn:B3, (keq p_s (wkt (final s))) eqn:B4; cbn [andb];
      try (left; split; [split; [apply S1|apply S2]; auto|reflexivity]);
      try (right; left; split; [split; [apply S4|apply S3]; auto|reflexivity]);
      right; right; (split; [|split; [|reflexivity]]); intros [X Y];
      try (apply S1 in X; discriminate); try (apply S2 in Y; discriminate); try (apply S4 in X; discriminate); try (apply S3 in Y; discriminate).
  Qed.

  Lemma find_first p_s p_e : forall l k s c, nth_error l k = Some s ->
    match_swath p_default w_nonpos w_zero wkt keq p_s p_e s = Ok (Some c) ->
    (forall j s', j < k -> nth_error l j = Some s' -> match_swath p_default w_nonpos w_zero wkt keq p_s p_e s' = Ok None) ->
    find_swath p_default w_nonpos w_zero wkt keq p_s p_e l = Ok (Some c).
  Proof.
    induction l as [|x l IH]; intros [|k] s c Hk Hm Hb; simpl in *; try discriminate.
    - assert (x = s) by congruence. subst. rewrite Hm. auto.
    - rewrite (Hb 0 x) by (auto; lia). cbn [bind]. eapply IH; eauto. intros j s' Hj Hs. apply (Hb (S j) s'); auto. lia.
  Qed.

  Lemma find_none p_s p_e : forall l,
    (forall s', In s' l -> match_swath p_default w_nonpos w_zero wkt keq p_s p_e s' = Ok None) ->
    find_swath p_default w_nonpos w_zero wkt keq p_s p_e l = Ok None.
  Proof.
    induction l as [|x l IH]; intros Hb; simpl in *; auto.
    rewrite (Hb x) by auto. cbn [bind]. auto.
  Qed.

  Lemma find_lbl p_s p_e a b : fst a < n -> fst b < n -> keq (pt a) p_s = true -> keq (pt b) p_e = true ->
    (forall k s (back : bool), nth_error ss k = Some s ->
       a = (k, if back then KEnd else KStart) -> b = (k, if back then KStart else KEnd) ->
       find_swath p_default w_nonpos w_zero wkt keq p_s p_e ss = Ok (Some (drive s back))) /\
    ((forall k, ~ (a = (k, KStart) /\ b = (k, KEnd)) /\ ~ (a = (k, KEnd) /\ b = (k, KStart))) ->
       find_swath p_default w_nonpos w_zero wkt keq p_s p_e ss = Ok None).
  Proof.
    intros Ha Hb Ea Eb. split.
    - intros k s back Ek Hka Hkb. apply (find_first _ _ _ k s); auto.
      + destruct (match_lbl p_s p_e a b k s Ek Ha Hb Ea Eb) as [[[X Y] M]|[[[X Y] M]|(X & Y & M)]].
        * destruct back; [congruence|auto].
        * destruct back; [auto|congruence].
        * destruct back; exfalso; auto.
      + intros j s' Hj Ej. destruct (match_lbl p_s p_e a b j s' Ej Ha Hb Ea Eb) as [[[X Y] M]|[[[X Y] M]|(X & Y & M)]]; auto.
        * assert (k = j) by (destruct back; congruence). lia.
        * assert (k = j) by (destruct back; congruence). lia.
    - intros Hno. apply find_none. intros s' Hs. apply In_nth_error in Hs. destruct Hs as [j Ej].
      destruct (match_lbl p_s p_e a b j s' Ej Ha Hb Ea Eb) as [[[X Y] M]|[[[X Y] M]|(X & Y & M)]]; auto;
        exfalso; destruct (Hno j); auto.
  Qed.

  (** ** Adding a swath to the route *)
  Variable rse : option P.
  Variable Inv : graph2d P -> Prop.
  Let known_pts := opt_list rse ++ end_points p_default ss.
  Hypothesis Hans : answers keq Inv known_pts.
  Hypothesis Hrse : forall p l, rse = Some p -> fst l < n -> keq p (pt l) = false.

  Definition known (a : P) : Prop := exists p, In p known_pts /\ keq p a = true.

  Record good (r : route P W) : Prop := {
    gd_shape : shape r;
    gd_groups : Forall (fun g => g <> []) (r_swaths r);
    gd_paths : forall s, In s (concat (r_swaths r)) -> sw_path s <> [];
    gd_last : r_swaths r <> [] -> exists e, hd_error (rev (line_of r)) = Some e /\ known e;
    gd_first : forall p, rse = Some p -> r_swaths r <> [] -> exists q, hd_error (line_of r) = Some q /\ keq q p = true
  }.

  Lemma good_empty : good r_empty.
  Proof. split; simpl; auto; try congruence; try apply shape_empty; try contradiction. Qed.

  Lemma drive_known k s back : nth_error ss k = Some s ->
    sw_path (drive s back) <> [] /\ known (first (drive s back)) /\ known (final (drive s back)) /\
    (exists x, (x = KStart \/ x = KEnd) /\ keq (pt (k, x)) (first (drive s back)) = true).
  Proof.
    intros Ek. assert (Hin : In s ss) by (eapply nth_error_In; eauto).
    rewrite Forall_forall in Hpath, Hwkt. specialize (Hwkt s Hin). destruct Hwkt as [W1 W2].
    pose proof (Hpath s Hin) as Hp.
    assert (Hc : sw_path (copy s) <> []) by (simpl; destruct (sw_path s); simpl; congruence).
    assert (I1 : In (first s) known_pts) by (apply in_or_app; right; apply in_flat_map; exists s; simpl; auto).
    assert (I2 : In (final s) known_pts) by (apply in_or_app; right; apply in_flat_map; exists s; simpl; auto).
    assert (Q1 : pt (k, KStart) = first s) by (unfold RoutePlanner_Proofs2.pt; simpl; rewrite Ek; auto).
    assert (Q2 : pt (k, KEnd) = final s) by (unfold RoutePlanner_Proofs2.pt; simpl; rewrite Ek; auto).
    destruct back; unfold drive.
    - destruct (rev_first (copy s) Hc) as [-> ->]. rewrite copy_first, copy_final by auto.
      split; [simpl; intro E; apply (f_equal (@rev P)) in E; rewrite rev_involutive in E; simpl in E; auto|].
      split; [exists (final s); split; auto; rewrite ksym; auto|].
      split; [exists (first s); split; auto; rewrite ksym; auto|].
      exists KEnd. split; auto. rewrite Q2, ksym. auto.
    - rewrite copy_first, copy_final by auto. split; auto.
      split; [exists (first s); split; auto; rewrite ksym; auto|].
      split; [exists (final s); split; auto; rewrite ksym; auto|].
      exists KStart. split; auto. rewrite Q1, ksym. auto.
  Qed.

  Lemma path_last (c : swath) : sw_path c <> [] -> hd_error (rev (sw_path c)) = Some (final c) /\ hd_error (sw_path c) = Some (first c).
  Proof.
    unfold last_pt, first_pt. intro H. destruct (snoc_cases (sw_path c)) as [E|(l & a & E)]; [congruence|].
    rewrite E, rev_app_distr, last_last. simpl. split; auto. destruct (l ++ [a]) eqn:E'; auto. destruct l; discriminate.
  Qed.

  Lemma hd_app {A} (l l' : list A) x : hd_error l = Some x -> hd_error (l ++ l') = Some x.
  Proof. destruct l; simpl; congruence. Qed.

  (** One swath at the end of a good route. *)
  Lemma good_add_swath r c : good r -> sw_path c <> [] -> known (final c) ->
    (forall p, rse = Some p -> exists q, hd_error (line_of r) = Some q /\ keq q p = true) ->
    exists r', r_addSwath r c = Ok r' /\ good r' /\ concat (r_swaths r') = concat (r_swaths r) ++ [c] /\ r_swaths r' <> [].
  Proof.
    intros [G1 G2 G3 G4 G5] Hc Hk Hf. destruct (add_swath r c G1) as (r' & E & A & B & C & D & F).
    assert (Hne : r_swaths r' <> []) by (intro Z; rewrite Z in C; simpl in C; symmetry in C; apply app_eq_nil in C; destruct C; discriminate).
    exists r'. split; auto. split; [|auto]. split; auto.
    - intros s. rewrite C. intro Hs. apply in_app_or in Hs. destruct Hs as [Hs|[<-|[]]]; auto.
    - intros _. exists (final c). split; auto. rewrite B, hd_rev_app by auto. apply path_last; auto.
    - intros p Hp _. destruct (Hf p Hp) as (q & Hq & Eq). exists q. split; auto. rewrite B. apply hd_app. auto.
  Qed.

  Lemma good_end r : good r -> r_swaths r <> [] -> exists e, r_endPoint p_default r = Ok e /\ known e.
  Proof.
    intros [G1 G2 G3 G4 G5] Hne. destruct (G4 Hne) as (e & He & Hk). exists e. split; auto.
    rewrite end_point_ok by auto. destruct (rev (line_of r)); simpl in He; congruence.
  Qed.

  (** Connection points at the end of a good route. *)
  Lemma good_add_points r mp : good r -> (mp <> [] -> exists e, hd_error (rev mp) = Some e /\ known e) ->
    (r_swaths r <> [] \/ exists e, hd_error (rev mp) = Some e /\ known e /\ forall p, rse = Some p -> exists q, hd_error mp = Some q /\ keq q p = true) ->
    exists r', r_addConnection_points r mp = Ok r' /\ good r' /\ concat (r_swaths r') = concat (r_swaths r) /\
      r_swaths r' = r_swaths r /\ line_of r' = line_of r ++ mp /\ r_isEmpty r' = false.
  Proof.
    intros [G1 G2 G3 G4 G5] He Hc. destruct (add_points mp r G1) as (r' & E & A & B & C & D).
    exists r'. split; auto. split; [|split; [congruence|split; [auto|split; [auto|]]]].
    - split; auto; try (rewrite C; auto).
      + intro Hne. rewrite B. destruct mp as [|x mp]; [rewrite app_nil_r; auto|].
        rewrite hd_rev_app by discriminate. apply He. discriminate.
      + intros p Hp Hne. rewrite B. destruct (G5 p Hp Hne) as (q & Hq & Eq). exists q. split; auto. apply hd_app. auto.
    - unfold r_isEmpty. destruct (r_swaths r'), (r_conns r'); auto. discriminate.
  Qed.

  Lemma add_graph r c sg k s back : good r -> Inv sg -> nth_error ss k = Some s -> c = drive s back ->
    r_swaths r <> [] \/ (rse = None /\ r = r_empty) ->
    exists r' sg', r_addSwath_graph p_default keq r c sg = Ok (r', sg') /\ good r' /\ Inv sg' /\
      concat (r_swaths r') = concat (r_swaths r) ++ [c] /\ r_swaths r' <> [].
  Proof.
    intros G Hi Ek -> Hr. destruct (drive_known k s back Ek) as (Hp & K1 & K2 & _). unfold r_addSwath_graph.
    destruct Hr as [Hne|[Hrn ->]].
    - assert (Ei : r_isEmpty r = false) by (unfold r_isEmpty; destruct (r_swaths r); [congruence|auto]). rewrite Ei.
      destruct (good_end r G Hne) as (e & Ee & Ke). rewrite Ee. cbn [bind].
      rewrite start_first. destruct (Hans sg e _ Hi Ke K1) as [(sg' & path & Eq & Hi' & _ & Hends) _]. rewrite Eq. cbn [bind snd fst].
      destruct (good_add_points r path G) as (r1 & E1 & G1 & C1 & S1 & L1 & _).
      { intro Hn. destruct (Hends Hn) as (p & q & _ & _ & Hq & Kq). exists q. split; auto.
        destruct K1 as (x & Hx & Ex). exists x. split; auto. apply (ktrans _ _ _ Ex). rewrite ksym. auto. }
      { left; auto. }
      rewrite E1. cbn [bind]. destruct (good_add_swath r1 (drive s back) G1 Hp K2) as (r' & E2 & G2 & C2 & N2).
      { intros p Hpp. destruct (gd_first _ G1 p Hpp) as (q & Hq & Kq); [congruence|eauto]. }
      rewrite E2. cbn [bind]. exists r', sg'. rewrite C2, C1. auto.
    - simpl r_isEmpty. cbn [bind]. destruct (good_add_swath r_empty (drive s back) G Hp K2) as (r' & E2 & G2 & C2 & N2).
      { intros p Hpp. congruence. }
      rewrite E2. cbn [bind]. exists r', sg. auto.
  Qed.

  Lemma add_to_route_ok r sg k s back : good r -> Inv sg -> nth_error ss k = Some s ->
    r_swaths r <> [] \/ r = r_empty ->
    exists r' sg', add_to_route p_default keq rse (r, sg) (drive s back) = Ok (r', sg') /\ good r' /\ Inv sg' /\
      concat (r_swaths r') = concat (r_swaths r) ++ [drive s back] /\ r_swaths r' <> [].
  Proof.
    intros G Hi Ek Hr. destruct (drive_known k s back Ek) as (Hp & K1 & K2 & (x & Hx & Kx)). unfold add_to_route.
    assert (Hcase : (exists p, rse = Some p) \/ rse = None) by (generalize rse; intros [p|]; eauto).
    destruct Hcase as [[p Erse]|Erse]; rewrite Erse.
    - cbn [fst snd]. destruct Hr as [Hne| ->].
      + assert (Ei : r_isEmpty r = false) by (unfold r_isEmpty; destruct (r_swaths r); [congruence|auto]). rewrite Ei. cbn [bind fst snd].
        apply (add_graph r _ sg k s back); auto.
      + change (r_isEmpty (@r_empty P W)) with true. cbv iota. rewrite start_first.
        assert (Kp : known p) by (exists p; split; [apply in_or_app; left; rewrite Erse; simpl; auto|auto]).
        destruct (Hans sg p _ Hi Kp K1) as [(sg' & path & Eq & Hi' & Hn & Hends) _]. rewrite Eq. cbn [bind snd fst].
        assert (Hlt : k < n) by (apply nth_error_Some; congruence).
        assert (Hpn : path <> []).
        { apply Hn. destruct (keq p (first (drive s back))) eqn:E; auto.
          rewrite <- (Hrse p (k, x) Erse Hlt). symmetry. apply (ktrans _ _ _ E). rewrite ksym. auto. }
        destruct (Hends Hpn) as (a & b & Ha & Ka & Hb & Kb).
        assert (Kb' : known b).
        { destruct K1 as (y & Hy & Ey). exists y. split; auto. apply (ktrans _ _ _ Ey). rewrite ksym. auto. }
        destruct (add_points path (r_empty : route P W) shape_empty) as (r1 & E1 & S1 & L1 & W1 & N1).
        rewrite E1. cbn [bind fst snd]. unfold r_addSwath_graph.
        assert (Ei : r_isEmpty r1 = false).
        { unfold r_isEmpty. rewrite W1. simpl in *. destruct (r_conns r1); [rewrite W1 in N1; discriminate|auto]. }
        rewrite Ei. simpl in L1, W1.
        assert (Eend : r_endPoint p_default r1 = Ok b).
        { rewrite end_point_ok; auto; [|rewrite W1; auto|rewrite W1; simpl; contradiction].
          rewrite L1. destruct (rev path); simpl in Hb; congruence. }
        rewrite Eend. cbn [bind].
        destruct (Hans sg' b _ Hi' Kb' K1) as [(sg2 & path2 & Eq2 & Hi2 & _ & Hends2) _]. rewrite start_first, Eq2. cbn [bind snd fst].
        destruct (add_points path2 r1 S1) as (r2 & E2 & S2 & L2 & W2 & N2). rewrite E2. cbn [bind].
        assert (G2 : good r2).
        { split; auto; rewrite W2, W1; simpl; auto; try contradiction; congruence. }
        destruct (good_add_swath r2 (drive s back) G2 Hp K2) as (r' & E3 & G3 & C3 & N3).
        { intros p0 Hp0. exists a. split; [rewrite L2, L1; apply hd_app; auto|congruence]. }
        rewrite E3. cbn [bind]. exists r', sg2. rewrite C3, W2, W1. auto.
    - cbn [bind fst snd]. apply (add_graph r _ sg k s back); auto. destruct Hr; auto.
  Qed.

  (** ** The whole loop *)
  Variable g : graph2d P.
  Variable ids : list nat.
  Variable L : list (nat * kind).
  Variable redirect : bool.
  Hypothesis HL : Forall2 (node p_default keq mid ss g) ids L.
  Hypothesis HV : forall l, In l L -> fst l < n.
  Hypothesis HND : NoDup L.
  Hypothesis HC : chain (mid_ok redirect) L.
  Hypothesis HF : forall a, nth_error L 0 = Some a -> is_mid a = false.
  Hypothesis HLast : forall a, nth_error L (length L - 1) = Some a -> is_mid a = false.
  Hypothesis Hmid : forall k, k < n -> In (k, KMid) L.

  Definition driven_of (x : nat * bool) : list swath :=
    match nth_error ss (fst x) with Some s => [drive s (snd x)] | None => [] end.
  Definition win (i : nat) : list (nat * bool) := match window L i with Some x => [x] | None => [] end.

  Lemma step_ok i r sg : i + 2 < length ids -> good r -> Inv sg -> r_swaths r <> [] \/ r = r_empty ->
    exists r' sg', transform_step p_default w_nonpos w_zero wkt keq rse ids ss g (r, sg) i = Ok (r', sg') /\
      good r' /\ Inv sg' /\ (r_swaths r' <> [] \/ r' = r_empty) /\
      concat (r_swaths r') = concat (r_swaths r) ++ flat_map driven_of (win i).
  Proof.
    intros Hi G HI Hr. pose proof (Forall2_length HL) as Hlen.
    assert (Hget : forall j, j < length ids -> exists x p l, nth_error ids j = Some x /\ g2_indexToNode g x = Ok p /\
      nth_error L j = Some l /\ fst l < n /\ keq (pt l) p = true).
    { intros j Hj. destruct (nth_error ids j) as [x|] eqn:Ex; [|apply nth_error_None in Ex; lia].
      destruct (nth_error L j) as [l|] eqn:El; [|apply nth_error_None in El; lia].
      assert (Hn : node p_default keq mid ss g x l).
      { clear - HL Ex El. revert j Ex El. induction HL as [|a b l1 l2 Hab H IH]; intros [|j] Ex El; simpl in *; try discriminate.
        - congruence. - eauto. }
      destruct Hn as (p & Hp & Ep). exists x, p, l. split; [auto|]. split; auto. split; auto. split; auto.
      apply HV. eapply nth_error_In; eauto. }
    destruct (Hget i ltac:(lia)) as (x & p_s & a & Ex & Ep & Ea & Va & Ka).
    destruct (Hget (i + 2) ltac:(lia)) as (y & p_e & b & Ey & Eq & Eb & Vb & Kb).
    destruct (Hget (i + 1) ltac:(lia)) as (z & p_m & m & Ez & Em & Ml & Vm & Km).
    unfold transform_step, vec_index. rewrite Ex. cbn [bind]. rewrite Ep. cbn [bind]. rewrite Ey. cbn [bind]. rewrite Eq. cbn [bind].
    destruct (find_lbl p_s p_e a b Va Vb Ka Kb) as [F1 F2].
    destruct m as [k x0]. destruct (kind_eq_dec x0) as [->|Hx0].
    - destruct (mid_between redirect L HND HC HF HLast k (i + 1) Ml) as (i' & Ei & Hcase).
      assert (i' = i) by lia. subst i'. simpl in Vm.
      destruct (nth_error ss k) as [s|] eqn:Ek; [|apply nth_error_None in Ek; unfold n in Vm; lia].
      assert (Hback : exists back : bool, a = (k, if back then KEnd else KStart) /\ b = (k, if back then KStart else KEnd)).
      { destruct Hcase as [[X Y]|(_ & X & Y)]; [exists false|exists true]; split; congruence. }
      destruct Hback as (back & Ha & Hb). rewrite (F1 k s back Ek Ha Hb). cbn [bind].
      destruct (add_to_route_ok r sg k s back G HI Ek Hr) as (r' & sg' & E & G' & I' & C & N).
      exists r', sg'. split; auto. split; auto. split; auto. split; auto. rewrite C. f_equal.
      unfold win, window. rewrite Ea, Ml. subst a. simpl. unfold driven_of. simpl. rewrite Ek.
      destruct back; auto.
    - rewrite F2.
      + cbn [bind]. exists r, sg. split; auto. split; auto. split; auto. split; auto.
        unfold win, window. rewrite Ea, Ml. destruct x0; try congruence; simpl; rewrite app_nil_r; auto.
      + intro k0. assert (Hcontra : forall u v, a = (k0, u) -> b = (k0, v) -> u <> KMid -> v <> KMid -> False).
        { intros u v -> -> Hu Hv. simpl in Va.
          pose proof (ends_around n redirect L HND HC HF HLast Hmid k0 i u v Va Ea Eb Hu Hv) as E.
          rewrite E in Ml. congruence. }
        split; intros [X Y]; eapply Hcontra; eauto; discriminate.
  Qed.

  Lemma steps_ok m : m + 2 <= length ids -> forall sg, Inv sg ->
    exists r' sg', foldM (transform_step p_default w_nonpos w_zero wkt keq rse ids ss g) (seq 0 m) (r_empty, sg) = Ok (r', sg') /\
      good r' /\ Inv sg' /\ (r_swaths r' <> [] \/ r' = r_empty) /\
      concat (r_swaths r') = flat_map driven_of (flat_map win (seq 0 m)).
  Proof.
    induction m as [|m IH]; intros Hm sg HI.
    - exists r_empty, sg. split; [reflexivity|]. split; [apply good_empty|]. auto.
    - rewrite seq_S, foldM_app. destruct (IH ltac:(lia) sg HI) as (r & sg1 & E & G & I1 & Hr & C). rewrite E. cbn [bind foldM].
      destruct (step_ok (0 + m) r sg1 ltac:(lia) G I1 Hr) as (r' & sg' & E' & G' & I' & Hr' & C'). rewrite E'. cbn [bind].
      exists r', sg'. split; auto. split; auto. split; auto. split; auto.
      rewrite C', C, flat_map_app, flat_map_app. simpl. rewrite app_nil_r. auto.
  Qed.

  Lemma driven_all ks : (forall k, In k (map fst ks) -> k < n) ->
    Forall2 (driven wkt ss) (flat_map driven_of ks) ks.
  Proof.
    induction ks as [|[k b] ks IH]; intro H; simpl; [constructor|].
    unfold driven_of at 1. simpl. destruct (nth_error ss k) as [s|] eqn:E.
    - simpl. constructor; [|apply IH; intros; apply H; simpl; auto].
      exists s. split; auto. destruct b; simpl; repeat split; auto; destruct (sw_dir s); auto.
    - apply nth_error_None in E. specialize (H k (or_introl eq_refl)). unfold n in H. lia.
  Qed.

  Lemma transform_ok sg sbc : concat sbc = ss -> 0 < n -> 2 <= length ids -> Inv sg ->
    exists r sg2, transformSolutionToRoute p_default w_nonpos w_zero wkt keq rse ids sbc g sg = Ok (r, sg2) /\ Inv sg2 /\
      concat (r_swaths r) = flat_map driven_of (windows L) /\
      (forall p, rse = Some p -> exists a b, r_startPoint p_default r = Ok a /\ keq a p = true /\
         r_endPoint p_default r = Ok b /\ keq b p = true).
  Proof.
    intros Hss Hn Hlen HI. unfold transformSolutionToRoute. rewrite Hss.
    assert (El : length ids <? 2 = false) by (apply Nat.ltb_ge; lia). rewrite El.
    destruct (steps_ok (length ids - 2) ltac:(lia) sg HI) as (r & sg1 & E & G & I1 & Hr & C). rewrite E. cbn [bind].
    assert (EW : flat_map win (seq 0 (length ids - 2)) = windows L) by (rewrite (Forall2_length HL); reflexivity).
    rewrite EW in C.
    assert (Hcase : (exists p, rse = Some p) \/ rse = None) by (generalize rse; intros [p|]; eauto).
    destruct Hcase as [[p Erse]|Erse]; rewrite Erse.
    - assert (Hne : r_swaths r <> []).
      { intro Z. rewrite Z in C. simpl in C.
        pose proof (windows_perm n redirect L HND HC HF HLast Hmid HV) as HP.
        pose proof (driven_all (windows L)) as HD. rewrite <- C in HD.
        assert (HW : windows L = []).
        { assert (X : Forall2 (driven wkt ss) [] (windows L)).
          { apply HD. intros k Hk. apply (Permutation_in _ HP) in Hk. apply in_seq in Hk. lia. }
          inversion X. auto. }
        rewrite HW in HP. apply Permutation_nil in HP. destruct n; [lia|discriminate]. }
      cbn [fst snd]. destruct (good_end r G Hne) as (e & Ee & Ke). rewrite Ee. cbn [bind].
      assert (Kp : known p) by (exists p; split; [apply in_or_app; left; rewrite Erse; simpl; auto|auto]).
      destruct (Hans sg1 e p I1 Ke Kp) as [(sg2 & path & Eq & Hi2 & Hn2 & Hends) _]. rewrite Eq. cbn [bind fst snd].
      destruct (add_points path r (gd_shape _ G)) as (r1 & E1 & S1 & L1 & W1 & N1). rewrite E1. cbn [bind].
      exists r1, sg2. split; auto. split; auto. split; [congruence|].
      intros p0 Hp0. assert (p0 = p) by congruence. subst p0.
      destruct G as [G1 G2 G3 G4 G5].
      destruct (G5 p Erse Hne) as (q & Hq & Kq).
      assert (Hst : r_startPoint p_default r1 = Ok q).
      { rewrite start_point_ok; auto; try (rewrite W1; auto). rewrite L1. destruct (line_of r); simpl in Hq; simpl; congruence. }
      assert (Hen : exists b, r_endPoint p_default r1 = Ok b /\ keq b p = true).
      { rewrite end_point_ok; auto; try (rewrite W1; auto). rewrite L1.
        rewrite end_point_ok in Ee by auto. destruct path as [|x path].
        - rewrite app_nil_r. exists e. split; auto. destruct (keq e p) eqn:Kep; auto. exfalso. apply Hn2; auto.
        - destruct (Hends ltac:(discriminate)) as (u & v & _ & _ & Hv & Kv).
          exists v. split; auto. rewrite <- (hd_rev_app (line_of r) (x :: path) ltac:(discriminate)) in Hv.
          destruct (rev (line_of r ++ x :: path)); simpl in Hv; congruence. }
      destruct Hen as (b & Hb & Kb). exists q, b. auto.
    - exists r, sg1. split; auto. split; auto. split; auto. intros p Hp. congruence.
  Qed.

  (** Order of the swaths: the order in which the tour visits their middles. *)
  Lemma mids_order ps : mapM (g2_indexToNode g) ids = Ok ps ->
    map fst (windows L) = flat_map (mids_at keq p_default mid ss) ps.
  Proof.
    intro E. rewrite (windows_mids n redirect L) by auto.
    assert (HF2 : Forall2 (fun p l => keq (pt l) p = true) ps L).
    { clear - HL E. revert ps E. induction HL as [|i l ids L Hil H IH]; intros ps E; simpl in E.
      - assert (ps = []) by congruence. subst. constructor.
      - destruct Hil as (p & Hp & Kp). rewrite Hp in E. cbn [bind] in E. bok E.
        assert (ps = p :: r) by congruence. subst. constructor; auto. }
    clear E. revert HV. clear - HF2 Hinj Heq krefl ksym ktrans.
    induction HF2 as [|p l ps L Hpl H IH]; intro HV; simpl; auto.
    rewrite <- IH by (intros; apply HV; right; auto).
    assert (Hl : fst l < n) by (apply HV; left; auto). clear IH HV.
    assert (HM : forall k, k < n -> match nth_error ss k with Some s => keq (mid (first s) (final s)) p | None => false end = true <-> l = (k, KMid)).
    { intros k Hk. destruct (nth_error ss k) as [s|] eqn:Es; [|apply nth_error_None in Es; unfold n in Hk; lia].
      assert (Q : pt (k, KMid) = mid (first s) (final s)) by (unfold RoutePlanner_Proofs2.pt; simpl; rewrite Es; auto).
      rewrite <- Q. split.
      - intro K. apply Hinj; auto. apply (ktrans _ p); auto. rewrite ksym. auto.
      - intros ->. auto. }
    assert (HS : mids_at keq p_default mid ss p = if is_mid l then [fst l] else []).
    { unfold mids_at. fold n. destruct l as [k x]. simpl in *.
      assert (G : forall a b, a + b <= n -> filter (fun k => match nth_error ss k with Some s => keq (mid (first s) (final s)) p | None => false end) (seq a b) =
        if is_mid (k, x) && (a <=? k) && (k <? a + b) then [k] else []).
      { intros a b. revert a. induction b as [|b IHb]; intros a Hab.
        - simpl. destruct (is_mid (k, x)), (Nat.leb_spec a k), (Nat.ltb_spec k (a + 0)); simpl; auto; lia.
        - cbn [seq filter]. rewrite IHb by lia.
          pose proof (HM a ltac:(lia)) as HMa.
          destruct (match nth_error ss a with Some s => keq (mid (first s) (final s)) p | None => false end).
          + assert (Ex : (k, x) = (a, KMid)) by (apply HMa; auto). assert (k = a) by congruence. assert (x = KMid) by congruence. subst k x.
            unfold is_mid. cbn [snd andb]. rewrite Nat.leb_refl.
            destruct (Nat.leb_spec (S a) a); [lia|]. destruct (Nat.ltb_spec a (a + S b)); [|lia]. auto.
          + destruct (is_mid (k, x)) eqn:Em; auto. cbn [andb].
            assert (x = KMid) by (unfold is_mid in Em; simpl in Em; destruct x; auto; discriminate). subst x.
            assert (k <> a) by (intros ->; assert (false = true) by (apply HMa; auto); discriminate).
            destruct (Nat.leb_spec (S a) k), (Nat.leb_spec a k), (Nat.ltb_spec k (S a + b)), (Nat.ltb_spec k (a + S b)); simpl; auto; lia. }
      rewrite G by lia. destruct (Nat.ltb_spec k (0 + n)); [|lia]. simpl Nat.leb. rewrite !andb_true_r. auto. }
    rewrite HS. destruct (is_mid l); simpl; auto.
  Qed.
End Convert.
