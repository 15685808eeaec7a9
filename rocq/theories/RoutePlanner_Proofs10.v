(** Proofs about best routes: the shape of tours, and what they cost. *)
From Coq Require Import List Arith ZArith Lia Bool Permutation Reals Lra.
From Verif Require Import Outcome ListAux Swath_Model Graph_Model Graph_Spec Graph_Proofs2 Graph2D_Model Graph2D_Spec
  Graph2D_Proofs Graph2D_Proofs2 Graph2D_Props Route_Proofs RoutePlanner_Model RoutePlanner_Spec RoutePlanner_Spec2 RoutePlanner_Spec3 RoutePlanner_Spec4
  RoutePlanner_Proofs RoutePlanner_Proofs2 RoutePlanner_Proofs3 RoutePlanner_Proofs4 RoutePlanner_Proofs5.
Import ListNotations.

(** ** Tours are made of swaths *)
Definition entry_of (kb : nat * bool) : nat * kind := (fst kb, if snd kb then KEnd else KStart).
Definition exit_of (kb : nat * bool) : nat * kind := (fst kb, if snd kb then KStart else KEnd).
Definition block (kb : nat * bool) : list (nat * kind) := [entry_of kb; (fst kb, KMid); exit_of kb].

Lemma last_not_mid (L : list (nat * kind)) a : L <> [] ->
  (forall x, nth_error (a :: L) (length (a :: L) - 1) = Some x -> is_mid x = false) ->
  forall x, nth_error L (length L - 1) = Some x -> is_mid x = false.
Proof.
  intros Hne H x Hx. apply H. destruct L as [|y L]; [congruence|]. simpl in *. rewrite Nat.sub_0_r in *. auto.
Qed.

Lemma blocks_of redirect : forall m L, length L <= m -> NoDup L -> chain (mid_ok redirect) L ->
  (forall a, nth_error L 0 = Some a -> is_mid a = false) ->
  (forall a, nth_error L (length L - 1) = Some a -> is_mid a = false) ->
  (forall l, In l L -> In (fst l, KMid) L) ->
  exists ks, L = flat_map block ks.
Proof.
  induction m as [|m IH]; intros L Hm HND HC HF HL Hcl.
  { destruct L; [exists []; auto|simpl in Hm; lia]. }
  destruct L as [|[k x] t]; [exists []; auto|].
  assert (Hx : is_mid (k, x) = false) by (apply HF; auto).
  assert (Hin : In (k, KMid) ((k, x) :: t)) by (apply (Hcl (k, x)); left; auto).
  apply In_nth_error in Hin. destruct Hin as [i Hi].
  destruct (mid_between redirect ((k, x) :: t) HND HC HF HL k i Hi) as (j & -> & Hj).
  assert (Hinj : forall i j a, nth_error ((k, x) :: t) i = Some a -> nth_error ((k, x) :: t) j = Some a -> i = j)
    by (intros; eapply nth_inj; eauto).
  assert (Hj0 : j = 0 /\ exists y, nth_error ((k, x) :: t) 2 = Some (k, y) /\ ((x = KStart /\ y = KEnd) \/ (x = KEnd /\ y = KStart))).
  { destruct Hj as [[J1 J2]|(_ & J1 & J2)].
    - destruct x; [|exfalso; assert (j + 2 = 0) by (apply (Hinj _ _ (k, KEnd)); auto); lia|discriminate].
      assert (j = 0) by (apply (Hinj _ _ (k, KStart)); auto). subst j. split; auto. exists KEnd. auto.
    - destruct x; [exfalso; assert (j + 2 = 0) by (apply (Hinj _ _ (k, KStart)); auto); lia| |discriminate].
      assert (j = 0) by (apply (Hinj _ _ (k, KEnd)); auto). subst j. split; auto. exists KStart. auto. }
  destruct Hj0 as [-> (y & Hy & Hxy)]. destruct t as [|b t]; [discriminate|]. destruct t as [|c t]; [discriminate|].
  simpl in Hi, Hy. injection Hi as ->. injection Hy as ->.
  inversion HND as [|? ? N1 ND1]; subst. inversion ND1 as [|? ? N2 ND2]; subst. inversion ND2 as [|? ? N3 ND3]; subst.
  assert (Hown : forall z, ~ In (k, z) t).
  { intros z Hz. destruct Hxy as [[-> ->]|[-> ->]]; destruct z; simpl in N1, N2, N3; tauto. }
  destruct (IH t) as [ks Hks]; auto.
  - simpl in Hm. lia.
  - destruct t as [|d t]; [exact I|]. simpl in HC. simpl. tauto.
  - intros a Ha. destruct t as [|d t]; [discriminate|]. injection Ha as ->. destruct HC as (_ & _ & [HC _] & _).
    destruct (is_mid a) eqn:Ea; auto. destruct a as [k' z]. destruct z; try discriminate.
    destruct (HC k' eq_refl) as [E|[_ E]]; injection E as <- _; exfalso; apply (Hown KMid); left; auto.
  - destruct t as [|d t]; [intros a Ha; discriminate|].
    apply (last_not_mid _ (k, y)); [discriminate|]. apply (last_not_mid _ (k, KMid)); [discriminate|].
    apply (last_not_mid _ (k, x)); [discriminate|]. exact HL.
  - intros l Hl. assert (Hl' : In (fst l, KMid) ((k, x) :: (k, KMid) :: (k, y) :: t)) by (apply Hcl; simpl; auto).
    destruct Hl' as [E|[E|[E|E]]]; auto; exfalso; apply (Hown (snd l)); injection E as E1; rewrite E1; destruct l; auto.
  - exists ((k, match x with KStart => false | _ => true end) :: ks). rewrite Hks. simpl. unfold entry_of, exit_of. simpl.
    destruct Hxy as [[-> ->]|[-> ->]]; reflexivity.
Qed.

Lemma windows_cons a t : 2 <= length t ->
  windows (a :: t) = (match window (a :: t) 0 with Some x => [x] | None => [] end) ++ windows t.
Proof.
  intro H. unfold windows. simpl length. replace (S (length t) - 2) with (S (length t - 2)) by lia.
  cbn [seq flat_map]. f_equal. rewrite <- seq_shift, flat_map_concat_map, map_map, <- flat_map_concat_map. reflexivity.
Qed.

Lemma windows_short t : length t < 3 -> windows t = [].
Proof. intro H. unfold windows. replace (length t - 2) with 0 by lia. reflexivity. Qed.

Lemma windows_blocks ks : windows (flat_map block ks) = ks.
Proof.
  induction ks as [|[k b] ks IH]; [reflexivity|].
  change (flat_map block ((k, b) :: ks)) with (entry_of (k, b) :: (k, KMid) :: exit_of (k, b) :: flat_map block ks).
  rewrite windows_cons by (simpl; lia).
  assert (E : windows ((k, KMid) :: exit_of (k, b) :: flat_map block ks) = windows (flat_map block ks)).
  { destruct ks as [|[k' b'] ks]; [reflexivity|].
    change (flat_map block ((k', b') :: ks)) with (entry_of (k', b') :: (k', KMid) :: exit_of (k', b') :: flat_map block ks).
    rewrite windows_cons by (simpl; lia). rewrite windows_cons by (simpl; lia). destruct b, b'; reflexivity. }
  rewrite E, IH. destruct b; reflexivity.
Qed.

Lemma in_blocks ks l : In l (flat_map block ks) -> In (fst l) (map fst ks).
Proof.
  intro H. apply in_flat_map in H. destruct H as (kb & Hk & H). apply in_map_iff. exists kb. split; auto.
  simpl in H. destruct H as [<-|[<-|[<-|[]]]]; reflexivity.
Qed.

Lemma blocks_in ks k x : In k (map fst ks) -> In (k, x) (flat_map block ks).
Proof.
  intro H. apply in_map_iff in H. destruct H as ([k' b] & E & H). simpl in E. subst k'. apply in_flat_map. exists (k, b). split; auto.
  unfold block, entry_of, exit_of. simpl. destruct b, x; auto.
Qed.

Lemma blocks_nodup ks : NoDup (map fst ks) -> NoDup (flat_map block ks).
Proof.
  induction ks as [|[k b] ks IH]; intro H; [constructor|]. simpl in H. inversion H as [|? ? H1 H2]; subst.
  assert (N : forall x, ~ In (k, x) (flat_map block ks)) by (intros x Hx; apply in_blocks in Hx; auto).
  simpl. unfold entry_of, exit_of. simpl. repeat constructor; auto; simpl; destruct b; intro Hx;
    repeat (destruct Hx as [Hx|Hx]; [discriminate|]); eapply N; eauto.
Qed.

(** ** What tours cost *)
Lemma route_fun (E : nat -> nat -> Z -> Prop) : (forall i j c c', E i j c -> E i j c' -> c = c') -> forall l c c', route E l c -> route E l c' -> c = c'.
Proof.
  intros HE l c c' H. revert c'. induction H as [i|i m l c1 c2 He Hr IH]; intros c' H'; inversion H'; subst; auto.
  f_equal; eauto.
Qed.

Section Trip.
  Context {P W : Type}.
  Variable p_default : P.
  Variable keq : P -> P -> bool.
  Variable mid : P -> P -> P.
  Variable far : P.
  Hypothesis Heq : equivalence keq.
  Let krefl : forall p, keq p p = true := proj1 Heq.
  Let ksym : forall p q, keq p q = keq q p := proj1 (proj2 Heq).
  Let ktrans : forall p q r, keq p q = true -> keq q r = true -> keq p r = true := proj2 (proj2 Heq).
  Variable ss : list (swath P W).
  Let n := length ss.
  Variable rse : option P.
  Variable redirect : bool.
  Variable travel : P -> P -> Z -> Prop.
  Notation arc := (cov_arc keq p_default mid far rse redirect ss travel).
  Notation pt := (pt p_default mid ss).
  Let depot := match rse with Some p => p | None => far end.

  Variable g : graph2d P.
  Variable N : nat.
  Notation e := (g_edges (g2_graph g)).
  Notation node := (node p_default keq mid ss g).
  Hypothesis Harcs : forall i j c, edge_in e i j c <->
    exists p q, g2_indexToNode g i = Ok p /\ g2_indexToNode g j = Ok q /\ arc p q c.
  Hypothesis HN : exists p, g2_indexToNode g N = Ok p /\ keq depot p = true.

  (** Travelling through the swaths [ks]. *)
  Fixpoint tcost (from : P) (ks : list (nat * bool)) (c : Z) : Prop :=
    match ks with
    | [] => match rse with Some p => travel from p c | None => c = 0%Z end
    | kb :: ks => exists c1 c2, travel from (pt (entry_of kb)) c1 /\ tcost (pt (exit_of kb)) ks c2 /\ c = (c1 + c2)%Z
    end.
  Definition ttour (ks : list (nat * bool)) (c : Z) : Prop :=
    match ks with
    | [] => False
    | kb :: ks => exists c1 c2, (match rse with Some p => travel p (pt (entry_of kb)) c1 | None => c1 = 0%Z end) /\
        tcost (pt (exit_of kb)) ks c2 /\ c = (c1 + c2)%Z
    end.

  Definition valid (kb : nat * bool) : Prop := fst kb < n /\ (redirect = false -> snd kb = false).

  Lemma swath_at k : k < n -> exists s, nth_error ss k = Some s /\ In s ss /\
    pt (k, KStart) = first_pt p_default s /\ pt (k, KEnd) = last_pt p_default s /\ pt (k, KMid) = middle p_default mid s.
  Proof.
    intro H. destruct (nth_error ss k) as [s|] eqn:E; [|apply nth_error_None in E; unfold n in H; lia].
    exists s. split; auto. split; [eapply nth_error_In; eauto|]. unfold RoutePlanner_Proofs2.pt. simpl. rewrite E. auto.
  Qed.

  Lemma edge_nodes i j l l' c : node i l -> node j l' -> arc (pt l) (pt l') c -> edge_in e i j c.
  Proof.
    intros (p & Hp & Kp) (q & Hq & Kq) H. apply Harcs. exists p, q. split; auto. split; auto. eapply ca_same; eauto.
  Qed.

  Lemma valid_ends kb : valid kb -> exists s, In s ss /\ In (pt (entry_of kb)) (ends p_default s) /\ In (pt (exit_of kb)) (ends p_default s) /\
    (redirect = false -> pt (entry_of kb) = first_pt p_default s /\ pt (exit_of kb) = last_pt p_default s) /\
    arc (pt (entry_of kb)) (pt (fst kb, KMid)) 0 /\ arc (pt (fst kb, KMid)) (pt (exit_of kb)) 0.
  Proof.
    intros [Hk Hr]. destruct kb as [k b]. simpl in *. destruct (swath_at k Hk) as (s & Es & Hs & P1 & P2 & P3).
    exists s. split; auto. unfold entry_of, exit_of. simpl. rewrite P3. destruct b; rewrite P1, P2.
    - assert (redirect = true) by (destruct redirect; auto; specialize (Hr eq_refl); discriminate).
      split; [simpl; auto|]. split; [simpl; auto|]. split; [congruence|]. split; [apply ca_in_back|apply ca_out_back]; auto.
    - split; [simpl; auto|]. split; [simpl; auto|]. split; [auto|]. split; [apply ca_in|apply ca_out]; auto.
  Qed.

  Lemma edge_next i j kb kb' c : valid kb -> valid kb' -> node i (exit_of kb) -> node j (entry_of kb') ->
    travel (pt (exit_of kb)) (pt (entry_of kb')) c -> edge_in e i j c.
  Proof.
    intros V V' Hi Hj T. eapply edge_nodes; eauto. destruct (valid_ends kb V) as (s & Hs & A1 & A2 & A3 & _).
    destruct (valid_ends kb' V') as (t & Ht & B1 & B2 & B3 & _).
    assert (Hc : redirect = true \/ redirect = false) by (generalize redirect; intros []; auto).
    destruct Hc as [Hc|Hc]; [apply ca_any with (s := s) (t := t); auto|]. destruct (A3 Hc) as [_ Ea], (B3 Hc) as [Eb _]. rewrite Ea, Eb in *.
    apply ca_next; auto.
  Qed.

  Lemma edge_leave j kb c : valid kb -> node j (entry_of kb) ->
    (match rse with Some p => travel p (pt (entry_of kb)) c | None => c = 0%Z end) -> edge_in e N j c.
  Proof.
    intros V (q & Hq & Kq) T. destruct HN as (p & Hp & Kp). destruct (valid_ends kb V) as (s & Hs & A1 & A2 & _).
    apply Harcs. exists p, q. split; auto. split; auto. eapply ca_same; [|exact Kp|exact Kq]. unfold depot.
    assert (Hcase : (exists d, rse = Some d) \/ rse = None) by (generalize rse; intros [d|]; eauto).
    destruct Hcase as [[d Er]|Er]; rewrite Er in T |- *.
    - apply ca_leave with (s := s); auto.
    - subst c. apply ca_leave_far with (s := s); auto.
  Qed.

  Lemma edge_return i kb c : valid kb -> node i (exit_of kb) ->
    (match rse with Some p => travel (pt (exit_of kb)) p c | None => c = 0%Z end) -> edge_in e i N c.
  Proof.
    intros V (q & Hq & Kq) T. destruct HN as (p & Hp & Kp). destruct (valid_ends kb V) as (s & Hs & A1 & A2 & _).
    apply Harcs. exists q, p. split; auto. split; auto. eapply ca_same; [|exact Kq|exact Kp]. unfold depot.
    assert (Hcase : (exists d, rse = Some d) \/ rse = None) by (generalize rse; intros [d|]; eauto).
    destruct Hcase as [[d Er]|Er]; rewrite Er in T |- *.
    - apply ca_return with (s := s); auto.
    - subst c. apply ca_return_far with (s := s); auto.
  Qed.

  Lemma rest_route : forall ks kb i ids c, valid kb -> node i (exit_of kb) -> Forall valid ks ->
    Forall2 node ids (flat_map block ks) -> tcost (pt (exit_of kb)) ks c -> route (edge_in e) (i :: ids ++ [N]) c.
  Proof.
    induction ks as [|k ks IH]; intros kb i ids c V Hi HV HF T.
    - inversion HF; subst. simpl. replace c with (c + 0)%Z by lia. apply route_cons; [|apply route_one]. apply (edge_return i kb); auto.
    - inversion HV as [|? ? V1 V2]; subst. change (flat_map block (k :: ks)) with (entry_of k :: (fst k, KMid) :: exit_of k :: flat_map block ks) in HF.
      inversion HF as [|i1 ? ids1 ? N1 HF1]; subst. inversion HF1 as [|i2 ? ids2 ? N2 HF2]; subst. inversion HF2 as [|i3 ? ids3 ? N3 HF3]; subst.
      destruct T as (c1 & c2 & T1 & T2 & ->). destruct (valid_ends k V1) as (s & _ & _ & _ & _ & A1 & A2). simpl.
      apply route_cons; [apply (edge_next i i1 kb k); auto|]. replace c2 with (0 + (0 + c2))%Z by lia.
      apply route_cons; [apply (edge_nodes i1 i2 (entry_of k) (fst k, KMid)); auto|]. apply route_cons; [apply (edge_nodes i2 i3 (fst k, KMid) (exit_of k)); auto|]. eapply IH; eauto.
  Qed.

  Lemma tour_route ks ids c : Forall valid ks -> Forall2 node ids (flat_map block ks) -> ttour ks c ->
    route (edge_in e) (N :: ids ++ [N]) c.
  Proof.
    intros HV HF T. destruct ks as [|k ks]; [contradiction|].
    inversion HV as [|? ? V1 V2]; subst. change (flat_map block (k :: ks)) with (entry_of k :: (fst k, KMid) :: exit_of k :: flat_map block ks) in HF.
    inversion HF as [|i1 ? ids1 ? N1 HF1]; subst. inversion HF1 as [|i2 ? ids2 ? N2 HF2]; subst. inversion HF2 as [|i3 ? ids3 ? N3 HF3]; subst.
    destruct T as (c1 & c2 & T1 & T2 & ->). destruct (valid_ends k V1) as (s & _ & _ & _ & _ & A1 & A2). simpl.
    apply route_cons; [apply (edge_leave i1 k); auto|]. replace c2 with (0 + (0 + c2))%Z by lia.
    apply route_cons; [apply (edge_nodes i1 i2 (entry_of k) (fst k, KMid)); auto|]. apply route_cons; [apply (edge_nodes i2 i3 (fst k, KMid) (exit_of k)); auto|]. eapply rest_route; eauto.
  Qed.

  (** ** Any order is a tour *)
  Hypothesis B1 : forall i, i < N -> exists l, fst l < n /\ node i l.
  Hypothesis B2 : forall l, fst l < n -> exists i, i < N /\ node i l.
  Hypothesis B3 : forall i l l', fst l < n -> fst l' < n -> node i l -> node i l' -> l = l'.
  Hypothesis B4 : forall i j l, node i l -> node j l -> i = j.

  Lemma route_arcs E l c : route E l c -> forall i a b, nth_error l i = Some a -> nth_error l (S i) = Some b -> exists c, E a b c.
  Proof.
    induction 1 as [x|x y l c1 c2 He Hr IH]; intros i a b Ha Hb.
    - destruct i; [discriminate|destruct i; discriminate].
    - destruct i as [|i]; [simpl in *; injection Ha as ->; injection Hb as ->; eauto|]. apply (IH i); auto.
  Qed.

  Lemma order_tour ks c : Permutation (map fst ks) (seq 0 n) -> Forall valid ks -> ttour ks c ->
    exists ids, round_tour e N ids /\ route (edge_in e) (N :: ids ++ [N]) c.
  Proof.
    intros HP HV T.
    assert (HL : forall l, In l (flat_map block ks) <-> fst l < n).
    { intros [k x]. split; intro H.
      - apply in_blocks in H. apply (Permutation_in _ HP) in H. apply in_seq in H. lia.
      - apply blocks_in. apply (Permutation_in _ (Permutation_sym HP)). apply in_seq. simpl in *. lia. }
    assert (HND : NoDup (flat_map block ks)).
    { apply blocks_nodup. eapply Permutation_NoDup; [apply Permutation_sym; exact HP|apply seq_NoDup]. }
    assert (X : forall L, (forall l, In l L -> fst l < n) -> exists ids, Forall2 (fun i l => i < N /\ node i l) ids L).
    { induction L as [|l L IH]; intro H; [exists []; constructor|]. destruct IH as [ids Hids]; [intros; apply H; right; auto|].
      destruct (B2 l) as [i Hi]; [apply H; left; auto|]. exists (i :: ids). constructor; auto. }
    destruct (X (flat_map block ks)) as [ids HF]; [intros l Hl; apply HL; auto|]. clear X.
    assert (HF' : Forall2 node ids (flat_map block ks)) by (clear - HF; induction HF as [|x y l l' [_ H] HF IH]; constructor; auto).
    pose proof (tour_route ks ids c HV HF' T) as HR. exists ids. split; [|exact HR]. split; [|apply (route_arcs _ _ _ HR)].
    apply NoDup_Permutation; [|apply seq_NoDup|].
    - clear - HF' HND HL B3 Heq. assert (HL' : forall l, In l (flat_map block ks) -> fst l < n) by (intros; apply HL; auto). clear HL.
      induction HF' as [|i l ids L Hil HF IH]; constructor.
      + intro Hin. inversion HND as [|? ? Hx ND']; subst. apply In_nth_error in Hin. destruct Hin as [j Hj].
        assert (Hl : exists l', nth_error L j = Some l' /\ node i l').
        { clear - HF Hj. revert j Hj. induction HF as [|a b l l' Hab HF IH]; intros [|j] Hj; simpl in *; try discriminate; eauto.
          injection Hj as ->. eauto. }
        destruct Hl as (l' & Hl' & Hn'). apply nth_error_In in Hl'. assert (l = l') by (apply (B3 i); auto; apply HL'; simpl; auto). subst l'. auto.
      + inversion HND; subst. apply IH; auto. intros l0 H0. apply HL'. right. auto.
    - intro i. rewrite in_seq. split.
      + intro Hi. apply (forall2_in _ _ _ HF) in Hi. destruct Hi as (l & _ & Hi & _). lia.
      + intros [_ Hi]. destruct (B1 i) as (l & Hl & Hn); [lia|]. apply HL in Hl. apply In_nth_error in Hl. destruct Hl as [j Hj].
        destruct (forall2_nth _ _ _ HF j l Hj) as (i' & Hi' & _ & Hn'). rewrite (B4 i i' l); auto. eapply nth_error_In; eauto.
  Qed.
End Trip.

Section Trips.
  Context {P W : Type}.
  Variable p_default : P.
  Variable wkt : P -> P.
  Variable keq : P -> P -> bool.
  Variable dc : P -> P -> Z.
  Variable mid : P -> P -> P.
  Hypothesis Heq : equivalence keq.
  Let krefl : forall p, keq p p = true := proj1 Heq.
  Let ksym : forall p q, keq p q = keq q p := proj1 (proj2 Heq).
  Let ktrans : forall p q r, keq p q = true -> keq q r = true -> keq p r = true := proj2 (proj2 Heq).
  Variable ss : list (swath P W).
  Let n := length ss.
  Notation first := (first_pt p_default).
  Notation final := (last_pt p_default).
  Hypothesis Hok : Forall (fun s => sw_path s <> [] /\
    keq (wkt (first s)) (first s) = true /\ keq (wkt (final s)) (final s) = true) ss.
  Variable rse : option P.
  Variable h : list (g2op P).
  Notation pt := (pt p_default mid ss).
  Notation travel := (least_cost keq dc h).
  Notation stops := (opt_list rse ++ end_points p_default ss).
  Hypothesis Hleast : forall a b, In a stops -> In b stops -> exists c, travel a b c.
  Hypothesis Hpos : forall x y c, g2_edge keq dc h x y = Some c -> (0 <= c)%Z.

  Lemma pt_route_pos l c : pt_route keq dc h l c -> (0 <= c)%Z.
  Proof. induction 1 as [|p q l c c' He Hr IH]; [lia|]. pose proof (Hpos _ _ _ He). lia. Qed.

  Lemma driven_ends s kb : driven wkt ss s kb ->
    keq (first s) (pt (entry_of kb)) = true /\ keq (final s) (pt (exit_of kb)) = true /\
    In (pt (entry_of kb)) stops /\ In (pt (exit_of kb)) stops /\ fst kb < n.
  Proof.
    destruct kb as [k b]. intros (s0 & Es & Hp & _). cbn [fst snd] in *.
    assert (Hs : In s0 ss) by (eapply nth_error_In; eauto). rewrite Forall_forall in Hok. destruct (Hok s0 Hs) as (H1 & H2 & H3).
    assert (Hk : k < n) by (apply nth_error_Some; congruence).
    assert (I1 : In (first s0) stops) by (apply in_or_app; right; apply in_flat_map; exists s0; simpl; auto).
    assert (I2 : In (final s0) stops) by (apply in_or_app; right; apply in_flat_map; exists s0; simpl; auto).
    assert (F1 : hd p_default (map wkt (sw_path s0)) = wkt (first s0)) by (unfold first_pt; destruct (sw_path s0); [congruence|reflexivity]).
    assert (F2 : last (map wkt (sw_path s0)) p_default = wkt (final s0)).
    { unfold last_pt. destruct (snoc_cases (sw_path s0)) as [E|(l & a & ->)]; [congruence|]. rewrite map_app. simpl. rewrite !last_last. auto. }
    assert (F3 : forall l : list P, l <> [] -> hd p_default (rev l) = last l p_default /\ last (rev l) p_default = hd p_default l).
    { intros l Hl. destruct (snoc_cases l) as [->|(l' & a & ->)]; [congruence|]. rewrite rev_app_distr. simpl app. split; [rewrite last_last; auto|].
      destruct l' as [|y l']; [reflexivity|]. change (a :: rev (y :: l')) with ((a :: rev l') ++ [y]). rewrite last_last. auto. }
    unfold entry_of, exit_of, RoutePlanner_Proofs2.pt. cbn [fst snd]. rewrite Es.
    assert (E1 : first s = hd p_default (sw_path s)) by reflexivity. assert (E2 : final s = last (sw_path s) p_default) by reflexivity.
    rewrite E1, E2, Hp. destruct b.
    - destruct (F3 (map wkt (sw_path s0))) as [-> ->]; [destruct (sw_path s0); simpl; congruence|]. rewrite F1, F2. auto.
    - rewrite F1, F2. auto.
  Qed.

  Lemma least_congr a b a' b' c : keq a a' = true -> keq b b' = true -> travel a b c -> travel a' b' c.
  Proof.
    intros Ka Kb [(l & p & q & R & P1 & P2 & P3 & P4) L]. split.
    - exists l, p, q. repeat (split; auto). all: eapply ktrans; eauto.
    - intros l' c' p' q' R' Q1 Q2 Q3 Q4. apply (L l' c' p' q'); auto; [apply (ktrans _ a')|apply (ktrans _ b')]; auto; rewrite ksym; auto.
  Qed.

  Lemma leg_least a b w c a0 b0 : keq a a0 = true -> keq b b0 = true -> In a0 stops -> In b0 stops ->
    leg_cost keq dc h a b w c -> exists c0, travel a0 b0 c0 /\ (c0 <= c)%Z.
  Proof.
    intros Ka Kb Ia Ib H. destruct (Hleast a0 b0 Ia Ib) as [c0 T]. exists c0. split; auto. destruct T as [_ T].
    destruct H as [(K & _ & ->)|(R & p & q & Q1 & Q2 & Q3 & Q4)].
    - apply (T [a] 0%Z a a); auto; [apply pr_one|apply (ktrans _ b); auto].
    - apply (T w c p q); eauto.
  Qed.

  Lemma way_least a b w a0 b0 : keq a a0 = true -> keq b b0 = true -> In a0 stops -> In b0 stops ->
    way keq dc h a b w -> exists c, leg_cost keq dc h a b w c /\ travel a0 b0 c.
  Proof.
    intros Ka Kb Ia Ib [[K ->]|(K & _ & c & p & q & R & Q1 & Q2 & Q3 & Q4 & T)].
    - exists 0%Z. split; [left; auto|]. destruct (Hleast a0 b0 Ia Ib) as [c0 T]. replace 0%Z with c0; auto.
      pose proof T as [(l & p & q & R & _) M]. assert (c0 <= 0)%Z; [|pose proof (pt_route_pos _ _ R); lia].
      apply (M [a] 0%Z a a); auto; [apply pr_one|apply (ktrans _ b); auto].
    - exists c. split; [right; split; auto; exists p, q; auto|]. apply (least_congr a b); auto.
  Qed.

  Lemma stop_rse p : rse = Some p -> In p stops.
  Proof. intros ->. simpl. auto. Qed.

  Lemma rest_least : forall cs ks ws from from0 c, Forall2 (driven wkt ss) cs ks -> keq from from0 = true -> In from0 stops ->
    rest_cost p_default (leg_cost keq dc h) rse from cs ws c ->
    exists c0, tcost p_default mid ss rse travel from0 ks c0 /\ (c0 <= c)%Z.
  Proof.
    induction cs as [|s cs IH]; intros ks ws from from0 c HF K Hin H.
    - inversion HF; subst. pose proof stop_rse as HS. pose proof leg_least as HLL.
      destruct ws as [|w [|w' ws]]; destruct rse as [p|]; simpl in H; try contradiction.
      + exists 0%Z. simpl. split; [auto|lia].
      + simpl. apply (HLL from p w c from0 p); auto.
    - inversion HF as [|? kb ? ks' HD HF']; subst. destruct ws as [|w ws]; [destruct rse; contradiction|].
      assert (H' : exists c1 c2, leg_cost keq dc h from (first s) w c1 /\ rest_cost p_default (leg_cost keq dc h) rse (final s) cs ws c2 /\ c = (c1 + c2)%Z)
        by exact H. clear H. destruct H' as (c1 & c2 & H1 & H2 & ->). destruct (driven_ends s kb HD) as (D1 & D2 & D3 & D4 & _).
      destruct (leg_least _ _ _ _ from0 (pt (entry_of kb)) K D1 Hin D3 H1) as (d1 & T1 & L1).
      destruct (IH ks' ws (final s) (pt (exit_of kb)) c2 HF' D2 D4 H2) as (d2 & T2 & L2).
      exists (d1 + d2)%Z. split; [|lia]. simpl. eauto.
  Qed.

  Lemma trip_least cs ks ws c : Forall2 (driven wkt ss) cs ks -> trip_cost p_default (leg_cost keq dc h) rse cs ws c ->
    exists c0, ttour p_default mid ss rse travel ks c0 /\ (c0 <= c)%Z.
  Proof.
    intros HF H. destruct cs as [|s cs]; [contradiction|]. destruct ws as [|w ws]; [contradiction|].
    inversion HF as [|? kb ? ks' HD HF']; subst. destruct H as (c1 & c2 & H1 & H2 & ->).
    destruct (driven_ends s kb HD) as (D1 & D2 & D3 & D4 & _).
    destruct (rest_least cs ks' ws (final s) (pt (exit_of kb)) c2 HF' D2 D4 H2) as (d2 & T2 & L2).
    assert (X : exists d1, (match rse with Some p => travel p (pt (entry_of kb)) d1 | None => d1 = 0%Z end) /\ (d1 <= c1)%Z).
    { pose proof stop_rse as HS. pose proof leg_least as HLL. destruct rse as [p|].
      - apply (HLL p (first s) w c1 p (pt (entry_of kb))); auto.
      - destruct H1 as [_ ->]. exists 0%Z. split; [auto|lia]. }
    destruct X as (d1 & T1 & L1). exists (d1 + d2)%Z. split; [|lia]. simpl. eauto.
  Qed.

  Lemma rest_way : forall cs ks ws from from0, Forall2 (driven wkt ss) cs ks -> keq from from0 = true -> In from0 stops ->
    legs p_default (way keq dc h) rse from cs ws ->
    exists c, rest_cost p_default (leg_cost keq dc h) rse from cs ws c /\ tcost p_default mid ss rse travel from0 ks c.
  Proof.
    induction cs as [|s cs IH]; intros ks ws from from0 HF K Hin H.
    - inversion HF; subst. pose proof stop_rse as HS. pose proof way_least as HWL.
      destruct ws as [|w [|w' ws]]; destruct rse as [p|]; simpl in H; try contradiction.
      + exists 0%Z. simpl. auto.
      + simpl. apply (HWL from p w from0 p); auto.
    - inversion HF as [|? kb ? ks' HD HF']; subst. destruct ws as [|w ws]; [destruct rse; contradiction|].
      assert (H' : way keq dc h from (first s) w /\ legs p_default (way keq dc h) rse (final s) cs ws) by exact H.
      clear H. destruct H' as [H1 H2]. destruct (driven_ends s kb HD) as (D1 & D2 & D3 & D4 & _).
      destruct (way_least _ _ _ from0 (pt (entry_of kb)) K D1 Hin D3 H1) as (d1 & T1 & L1).
      destruct (IH ks' ws (final s) (pt (exit_of kb)) HF' D2 D4 H2) as (d2 & T2 & L2).
      exists (d1 + d2)%Z. split; simpl; eauto 6.
  Qed.

  Lemma trip_way cs ks ws : Forall2 (driven wkt ss) cs ks -> linked_by p_default (way keq dc h) rse cs ws ->
    exists c, trip_cost p_default (leg_cost keq dc h) rse cs ws c /\ ttour p_default mid ss rse travel ks c.
  Proof.
    intros HF H. destruct cs as [|s cs]; [contradiction|]. destruct ws as [|w ws]; [contradiction|].
    inversion HF as [|? kb ? ks' HD HF']; subst. destruct H as [H1 H2].
    destruct (driven_ends s kb HD) as (D1 & D2 & D3 & D4 & _).
    destruct (rest_way cs ks' ws (final s) (pt (exit_of kb)) HF' D2 D4 H2) as (d2 & T2 & L2).
    assert (X : exists d1, (match rse with Some p => leg_cost keq dc h p (first s) w d1 | None => w = [] /\ d1 = 0%Z end) /\
      (match rse with Some p => travel p (pt (entry_of kb)) d1 | None => d1 = 0%Z end)).
    { pose proof stop_rse as HS. pose proof way_least as HWL. destruct rse as [p|].
      - apply (HWL p (first s) w p (pt (entry_of kb))); auto.
      - exists 0%Z. auto. }
    destruct X as (d1 & T1 & L1). exists (d1 + d2)%Z. split; simpl; eauto 6.
  Qed.
End Trips.

(** ** The nodes of the coverage graph *)
Section Nodes.
  Context {P W : Type}.
  Variable p_default : P.
  Variable keq : P -> P -> bool.
  Variable mid : P -> P -> P.
  Variable far : P.
  Hypothesis Heq : equivalence keq.
  Let krefl : forall p, keq p p = true := proj1 Heq.
  Let ksym : forall p q, keq p q = keq q p := proj1 (proj2 Heq).
  Let ktrans : forall p q r, keq p q = true -> keq q r = true -> keq p r = true := proj2 (proj2 Heq).
  Variable ss : list (swath P W).
  Let n := length ss.
  Variable rse : option P.
  Variable redirect : bool.
  Variable travel : P -> P -> Z -> Prop.
  Let depot := match rse with Some p => p | None => far end.
  Notation pt := (pt p_default mid ss).

  Lemma end_label s a : In s ss -> In a (ends p_default s) -> exists l, fst l < n /\ pt l = a.
  Proof.
    intros Hs Ha. apply In_nth_error in Hs. destruct Hs as [k Ek]. assert (k < n) by (apply nth_error_Some; congruence).
    destruct Ha as [<-|[<-|[]]]; [exists (k, KStart)|exists (k, KEnd)]; (split; [auto|]); unfold RoutePlanner_Proofs2.pt; simpl; rewrite Ek; auto.
  Qed.
  Lemma mid_label s : In s ss -> exists l, fst l < n /\ pt l = middle p_default mid s.
  Proof.
    intros Hs. apply In_nth_error in Hs. destruct Hs as [k Ek]. assert (k < n) by (apply nth_error_Some; congruence).
    exists (k, KMid). split; [auto|]. unfold RoutePlanner_Proofs2.pt; simpl; rewrite Ek; auto.
  Qed.

  Lemma arc_from p q c : cov_arc keq p_default mid far rse redirect ss travel p q c ->
    (exists l, fst l < n /\ keq (pt l) p = true) \/ keq depot p = true.
  Proof.
    induction 1 as [s Hs|s Hs|s Hr Hs|s Hr Hs|s t c Hs Ht T|s t a b c Hr Hs Ht Ha Hb T|d s a c Er Hs Ha T|d s a c Er Hs Ha T|s a Er Hs Ha|s a Er Hs Ha|p q p' q' c H IH K1 K2].
    - left. destruct (end_label s (first_pt p_default s)) as (l & Hl & E); [auto|simpl; auto|]. exists l. rewrite E. auto.
    - left. destruct (mid_label s) as (l & Hl & E); auto. exists l. rewrite E. auto.
    - left. destruct (end_label s (last_pt p_default s)) as (l & Hl & E); [auto|simpl; auto|]. exists l. rewrite E. auto.
    - left. destruct (mid_label s) as (l & Hl & E); auto. exists l. rewrite E. auto.
    - left. destruct (end_label s (last_pt p_default s)) as (l & Hl & E); [auto|simpl; auto|]. exists l. rewrite E. auto.
    - left. destruct (end_label s a) as (l & Hl & E); auto. exists l. rewrite E. auto.
    - right. unfold depot. rewrite Er. auto.
    - left. destruct (end_label s a) as (l & Hl & E); auto. exists l. rewrite E. auto.
    - right. unfold depot. rewrite Er. auto.
    - left. destruct (end_label s a) as (l & Hl & E); auto. exists l. rewrite E. auto.
    - destruct IH as [(l & Hl & K)|K]; [left; exists l; split; auto; eapply ktrans; eauto|right; eapply ktrans; eauto].
  Qed.

  Lemma depot_node sbc sg g sg1 : concat sbc = ss ->
    pairwise_different keq (depot :: flat_map (swath_nodes p_default mid) ss) -> 0 < n ->
    createCoverageGraph p_default keq mid far rse sbc sg redirect = Ok (g, sg1) ->
    (forall i j c, edge_in (g_edges (g2_graph g)) i j c <->
      exists p q, g2_indexToNode g i = Ok p /\ g2_indexToNode g j = Ok q /\
        cov_arc keq p_default mid far rse redirect ss travel p q c) ->
    let N := g2_numNodes g - 1 in
    let node := node p_default keq mid ss g in
    (exists p, g2_indexToNode g N = Ok p /\ keq depot p = true) /\
    (forall i j c c', edge_in (g_edges (g2_graph g)) i j c -> edge_in (g_edges (g2_graph g)) i j c' -> c = c') /\
    (forall i, i < N -> exists l, fst l < n /\ node i l) /\
    (forall l, fst l < n -> exists i, i < N /\ node i l) /\
    (forall i l l', fst l < n -> fst l' < n -> node i l -> node i l' -> l = l') /\
    (forall i j l, node i l -> node j l -> i = j).
  Proof.
    intros Hss Hdiff Hn Eg Harcs.
    assert (Hg : exists g1, adds keq g2_empty (arcs_inner p_default mid redirect ss) g1 /\
      adds keq g1 (flat_map (arcs_depot p_default (depot_of far rse)) ss) g) by (subst ss; eapply adds_coverage; eauto).
    destruct (cov_graph p_default keq mid far Heq ss rse redirect Hdiff (fun _ _ => 0%Z) g Hg Hn)
      as (N & HN & B1 & B2 & B3 & B4 & B5 & B6 & B7 & B8 & B9).
    rewrite HN. replace (S N - 1) with N by lia. cbv zeta. split; [|split].
    - destruct (B2 (0, KStart) Hn) as (j & Hj & Nj). destruct (B9 j (0, KStart) Hn Nj) as [[c Hc] _]; [discriminate|].
      apply Harcs in Hc. destruct Hc as (p & q & Hp & Hq & A). exists p. split; auto.
      destruct (arc_from p q c A) as [(l & Hl & K)|K]; auto. exfalso.
      destruct (B2 l Hl) as (i & Hi & Ni). assert (i = N) by (apply (B4 i N l); auto; exists p; auto). lia.
    - destruct Hg as (g1 & A1 & A2). pose proof (adds_app keq _ _ _ _ _ A1 A2) as A.
      destruct (adds_history keq (fun _ _ => 0%Z) _ _ _ A) as (h & _ & _ & R).
      destruct (linked_run keq (fun _ _ => 0%Z) Heq h g R) as (pts & h' & HL).
      intros i j c c' H H'. rewrite (l_look keq _ _ pts g h' HL) in H, H'. congruence.
    - auto.
  Qed.
End Nodes.

(** ** Costs and lengths *)
Section Lengths.
  Context {P : Type}.
  Variable keq : P -> P -> bool.
  Variable dc : P -> P -> Z.

  (** The edges cost the distance of points that are their ends. *)
  Lemma edge_dist_ends h p q c : forallb edit h = true -> g2_edge keq dc h p q = Some c ->
    exists x y, In x (inserted h) /\ In y (inserted h) /\ c = dc x y /\
      (keq x p = true /\ keq y q = true \/ keq x q = true /\ keq y p = true).
  Proof.
    induction h as [|o h IH] using rev_ind; intro Hed; [discriminate|].
    rewrite forallb_app in Hed. apply andb_true_iff in Hed. destruct Hed as [Hed Ho]. simpl in Ho.
    rewrite edge_snoc, inserted_app. intro H.
    assert (X : g2_edge keq dc h p q = Some c -> exists x y, In x (inserted h ++ inserted [o]) /\ In y (inserted h ++ inserted [o]) /\ c = dc x y /\
      (keq x p = true /\ keq y q = true \/ keq x q = true /\ keq y p = true)).
    { intro E. destruct (IH Hed E) as (x & y & Hx & Hy & Ec & K). exists x, y. split; [apply in_or_app; auto|]. split; [apply in_or_app; auto|]. auto. }
    destruct o; simpl in Ho; try discriminate; simpl in H; match type of H with context [if ?b then _ else _] => destruct b eqn:B end; auto; [|discriminate].
    exists i, j. split; [apply in_or_app; right; simpl; auto|]. split; [apply in_or_app; right; simpl; auto|]. split; [congruence|].
    apply orb_true_iff in B. destruct B as [B|B]; apply andb_true_iff in B; destruct B as [B1 B2]; auto.
  Qed.

  Variable dist : P -> P -> R.
  Hypothesis Heq : equivalence keq.
  Hypothesis Hsym : forall a b, dist a b = dist b a.
  Hypothesis Hkeq : forall a b a' b', keq a a' = true -> keq b b' = true -> dist a b = dist a' b'.

  Variable h : list (g2op P).
  Hypothesis Hcost : forall p q c, g2_edge keq dc h p q = Some c -> (IZR c <= 1000 * dist p q <= IZR c + 1)%R.

  Lemma route_length w c : pt_route keq dc h w c ->
    (IZR c <= 1000 * walk_length dist w <= IZR c + INR (length w - 1))%R.
  Proof.
    induction 1 as [p|p q l c c' He Hr IH].
    - simpl. lra.
    - apply Hcost in He. change (walk_length dist (p :: q :: l)) with (dist p q + walk_length dist (q :: l))%R.
      replace (length (p :: q :: l) - 1) with (S (length (q :: l) - 1)) by (simpl; lia).
      rewrite plus_IZR, S_INR. lra.
  Qed.

  Lemma leg_length a b w c : leg_cost keq dc h a b w c ->
    (IZR c <= 1000 * walk_length dist w <= IZR c + INR (length w - 1))%R.
  Proof. intros [(_ & -> & ->)|(H & _)]; [simpl; lra|apply route_length; auto]. Qed.

  Context {W : Type}.
  Variable p_default : P.

  Lemma total_cons w ws : (total_length dist (w :: ws) = walk_length dist w + total_length dist ws)%R.
  Proof. reflexivity. Qed.
  Lemma pieces_cons (w : list P) ws : INR (pieces (w :: ws)) = (INR (length w - 1) + INR (pieces ws))%R.
  Proof. unfold pieces. simpl map. simpl list_sum. apply plus_INR. Qed.

  Lemma rest_length rse : forall (cs : list (swath P W)) from ws c, rest_cost p_default (leg_cost keq dc h) rse from cs ws c ->
    (IZR c <= 1000 * total_length dist ws <= IZR c + INR (pieces ws))%R.
  Proof.
    induction cs as [|s cs IH]; intros from ws c H.
    - destruct ws as [|w [|w' ws]]; destruct rse as [p|]; simpl in H; try contradiction.
      + subst. unfold total_length, pieces. simpl. lra.
      + apply leg_length in H. rewrite total_cons, pieces_cons. unfold total_length, pieces. simpl. lra.
    - destruct ws as [|w ws]; [destruct rse; contradiction|].
      assert (H' : exists c1 c2, leg_cost keq dc h from (first_pt p_default s) w c1 /\
        rest_cost p_default (leg_cost keq dc h) rse (last_pt p_default s) cs ws c2 /\ c = (c1 + c2)%Z) by (destruct rse; exact H).
      destruct H' as (c1 & c2 & H1 & H2 & ->). apply leg_length in H1. apply IH in H2.
      rewrite total_cons, pieces_cons, plus_IZR. lra.
  Qed.

  Lemma trip_length rse (cs : list (swath P W)) ws c : trip_cost p_default (leg_cost keq dc h) rse cs ws c ->
    (IZR c <= 1000 * total_length dist ws <= IZR c + INR (pieces ws))%R.
  Proof.
    intro H. destruct cs as [|s cs]; [contradiction|]. destruct ws as [|w ws]; [contradiction|].
    destruct H as (c1 & c2 & H1 & H2 & ->). apply rest_length in H2. rewrite total_cons, pieces_cons, plus_IZR.
    destruct rse as [p|]; [apply leg_length in H1; lra|]. destruct H1 as [-> ->]. simpl. lra.
  Qed.
End Lengths.
