(** Edge editing, depth-first search, caches and histories. *)
From Coq Require Import List Arith ZArith Lia Bool Permutation.
From Verif Require Import Outcome ListAux Graph_Model Graph_Spec Graph_Proofs Graph_Proofs2.
Import ListNotations.

(** ** Editing edges *)

Lemma getCost_look e i j INF :
  getCostFromEdge e i j INF = match look e i j with Some c => c | None => INF end.
Proof. unfold getCostFromEdge, look. destruct (am_find i e); auto. Qed.

Lemma look_add e a b c i j :
  look (edges_add e a b c) i j = if (a =? i) && (b =? j) then Some c else look e i j.
Proof.
  unfold look, edges_add. rewrite am_find_set.
  destruct (Nat.eqb_spec a i) as [->|]; auto. rewrite am_find_set. simpl.
  destruct (b =? j); auto. destruct (am_find i e); auto.
Qed.

Lemma keys_unique_sub e i m : keys_unique e -> am_find i e = Some m -> NoDup (map fst m).
Proof. intros [H1 H2] H. apply am_find_In in H; auto. eapply H2; eauto. Qed.

Lemma am_set_In {V} k (v : V) m x y : In (x, y) (am_set k v m) -> (x = k /\ y = v) \/ In (x, y) m.
Proof.
  induction m as [|[a b] m IH]; simpl.
  - intros [H|[]]. left. split; congruence.
  - destruct (Nat.eqb_spec a k) as [->|].
    + intros [H|H]; [left; split; congruence|auto].
    + intros [H|H]; auto. destruct (IH H); auto.
Qed.

Lemma keys_unique_set e a m : keys_unique e -> NoDup (map fst m) -> keys_unique (am_set a m e).
Proof.
  intros [H1 H2] Hm. split; [apply am_set_NoDup; auto|].
  intros i m' H. apply am_set_In in H. destruct H as [[-> ->]|H]; auto. eapply H2; eauto.
Qed.

Lemma keys_unique_add e a b c : keys_unique e -> keys_unique (edges_add e a b c).
Proof.
  intro H. apply keys_unique_set; auto. apply am_set_NoDup.
  destruct (am_find a e) eqn:Ea; [eapply keys_unique_sub; eauto|constructor].
Qed.

Lemma keys_unique_remove e a b : keys_unique e -> keys_unique (edges_remove e a b).
Proof.
  intro H. unfold edges_remove. destruct (am_find a e) as [m|] eqn:Ea; auto.
  destruct (am_find b m); auto. apply keys_unique_set; auto. apply am_erase_NoDup.
  eapply keys_unique_sub; eauto.
Qed.

Lemma look_remove e a b i j : keys_unique e ->
  look (edges_remove e a b) i j = if (a =? i) && (b =? j) then None else look e i j.
Proof.
  intro Hk. unfold edges_remove. destruct (am_find a e) as [m|] eqn:Ea.
  - destruct (am_find b m) eqn:Eb.
    + unfold look. rewrite am_find_set. destruct (Nat.eqb_spec a i) as [->|]; auto.
      rewrite am_find_erase by (eapply keys_unique_sub; eauto). rewrite Ea. simpl. auto.
    + destruct (Nat.eqb_spec a i) as [->|]; auto. destruct (Nat.eqb_spec b j) as [->|]; auto.
      unfold look. simpl. rewrite Ea. auto.
  - destruct (Nat.eqb_spec a i) as [->|]; auto. unfold look. rewrite Ea. simpl. destruct (b =? j); auto.
Qed.

Definition total (e : list (nat * list (nat * Z))) : nat := list_sum (map (fun p => length (snd p)) e).

Lemma numEdges_total e : numEdges e = total e.
Proof.
  unfold numEdges, total.
  assert (forall e acc, fold_left (fun sum (p : nat * list (nat * Z)) => sum + length (snd p)) e acc
           = acc + list_sum (map (fun p => length (snd p)) e)) as H.
  { induction e0 as [|p e0 IH]; intro acc; simpl; [lia|]. rewrite IH. simpl. lia. }
  apply H.
Qed.

Lemma total_set e a m : keys_unique e ->
  total (am_set a m e) + (match am_find a e with Some m0 => length m0 | None => 0 end)
  = total e + length m.
Proof.
  intros [H _]. unfold total. induction e as [|[k v] e IH]; simpl in *; [lia|].
  inversion H; subst. destruct (Nat.eqb_spec k a) as [->|]; simpl; [lia|].
  specialize (IH H3). lia.
Qed.

Lemma am_set_length_new {V} k (v : V) m : am_find k m = None -> length (am_set k v m) = S (length m).
Proof.
  induction m as [|[a b] m IH]; simpl; intro H; auto.
  destruct (a =? k); [discriminate|]. simpl. auto.
Qed.

Lemma numEdges_add e a b c : keys_unique e ->
  numEdges (edges_add e a b c) = match look e a b with Some _ => numEdges e | None => S (numEdges e) end.
Proof.
  intro Hk. rewrite !numEdges_total.
  pose proof (total_set e a (am_set b c match am_find a e with Some m => m | None => [] end) Hk) as H.
  unfold edges_add, look. destruct (am_find a e) as [m|] eqn:Ea; rewrite ?Ea in H.
  - destruct (am_find b m) eqn:Eb.
    + rewrite am_set_length in H by congruence. lia.
    + rewrite am_set_length_new in H by auto. lia.
  - change (length (am_set b c [])) with 1 in H. lia.
Qed.

Lemma numEdges_remove e a b : keys_unique e ->
  numEdges (edges_remove e a b) = match look e a b with Some _ => numEdges e - 1 | None => numEdges e end.
Proof.
  intro Hk. unfold edges_remove, look. destruct (am_find a e) as [m|] eqn:Ea; auto.
  destruct (am_find b m) eqn:Eb; auto.
  pose proof (total_set e a (am_erase b m) Hk) as H. rewrite Ea in H.
  rewrite !numEdges_total. assert (Hl : am_find b m <> None) by congruence.
  apply am_erase_length in Hl. lia.
Qed.

Lemma numNodes_add e a b c :
  numNodes (edges_add e a b c) = match am_find a e with Some _ => numNodes e | None => S (numNodes e) end.
Proof.
  unfold numNodes, edges_add. destruct (am_find a e) eqn:Ea.
  - apply am_set_length. congruence.
  - apply am_set_length_new. auto.
Qed.

Lemma numNodes_remove e a b : numNodes (edges_remove e a b) = numNodes e.
Proof.
  unfold numNodes, edges_remove. destruct (am_find a e) as [m|] eqn:Ea; auto.
  destruct (am_find b m); auto. apply am_set_length. congruence.
Qed.

(** ** Depth-first search *)

Section DFSProofs.
  Variable enum : list (nat * Z) -> list nat.
  Hypothesis enum_ok : forall m, Permutation (enum m) (map fst m).
  Variable e : list (nat * list (nat * Z)).
  Hypothesis Hk : keys_unique e.
  Hypothesis Hd : forall i j c, edge_in e i j c -> j < length e.
  Variable to : nat.

  Lemma neighbours_In i j : In j (getEdgesFrom enum e i) <-> exists c, edge_in e i j c.
  Proof.
    unfold getEdgesFrom. split.
    - destruct (am_find i e) as [m|] eqn:Em; [|intros []].
      intro H. apply (Permutation_in _ (enum_ok m)) in H. apply in_map_iff in H.
      destruct H as ([j' c] & <- & H). exists c, m. split; auto. apply am_find_In; auto. apply Hk.
    - intros (c & m & Hm & Hj). apply (am_find_In i m e (proj1 Hk)) in Hm. rewrite Hm.
      apply (Permutation_in _ (Permutation_sym (enum_ok m))). apply (in_map fst) in Hj. auto.
  Qed.

  Lemma neighbours_NoDup i : NoDup (getEdgesFrom enum e i).
  Proof.
    unfold getEdgesFrom. destruct (am_find i e) as [m|] eqn:Em; [|constructor].
    apply (Permutation_NoDup (Permutation_sym (enum_ok m))). eapply keys_unique_sub; eauto.
  Qed.

  (** Simple routes from a node that avoid [V] and stop at [to]. *)
  Inductive tpath : (nat -> Prop) -> nat -> list nat -> Prop :=
  | tp_one : forall V a, tpath V a [a]
  | tp_cons : forall V a m c t, a <> to -> edge_in e a m c -> ~ V m -> m <> a ->
      tpath (fun x => V x \/ x = a) m t -> tpath V a (a :: t).

  Lemma tpath_hd V a t : tpath V a t -> exists t', t = a :: t'.
  Proof. inversion 1; eauto. Qed.

  Lemma tpath_ext V a t : tpath V a t -> forall V', (forall x, V x <-> V' x) -> tpath V' a t.
  Proof.
    induction 1; intros V' HV; [constructor|].
    econstructor; eauto; [rewrite <- HV; auto|]. apply IHtpath. intro x. rewrite HV. tauto.
  Qed.

  Lemma tpath_sound V a t : tpath V a t -> ~ V a ->
    NoDup t /\ (forall x, In x t -> ~ V x) /\ exists c, route (edge_in e) t c.
  Proof.
    induction 1 as [V a|V a m c t Hne He HV Hma Ht IH]; intro Ha.
    - split; [repeat constructor; auto|]. split; [intros x [<-|[]]; auto|]. exists 0%Z. constructor.
    - destruct IH as (N & A & (c' & R)); [intros [|]; auto|].
      split; [|split].
      + constructor; auto. intro Hin. apply (A a Hin). auto.
      + intros x [<-|Hx]; auto. intro Hv. apply (A x Hx). auto.
      + destruct (tpath_hd _ _ _ Ht) as [t' ->]. exists (c + c')%Z. constructor; auto.
  Qed.

  Lemma tpath_complete : forall t V a c, route (edge_in e) t c -> NoDup t ->
    hd_error t = Some a -> hd_error (rev t) = Some to -> (forall x, In x t -> ~ V x) -> tpath V a t.
  Proof.
    induction t as [|a0 t IH]; intros V a c R N H1 H2 A; [inversion R|].
    simpl in H1. assert (a0 = a) by congruence. subst a0.
    inversion R as [|i m l c1 c2 He Hr]; subst; [constructor|].
    inversion N as [|? ? Nin Nd]; subst.
    assert (H2' : hd_error (rev (m :: l)) = Some to).
    { simpl in H2 |- *. destruct (rev l ++ [m]) eqn:E.
      - apply app_eq_nil in E. destruct E as [_ E]. discriminate.
      - simpl in *. auto. }
    apply tp_cons with (m := m) (c := c1); auto.
    - intro Heq. subst a. apply Nin.
      apply in_rev. destruct (rev (m :: l)) as [|x r]; [discriminate|].
      simpl in H2'. injection H2' as ->. left. auto.
    - apply A. right. left. auto.
    - intro Heq. subst. apply Nin. left. auto.
    - eapply IH; eauto. intros x Hx [Hv|Hv]; [apply (A x); auto; right; auto|].
      subst. auto.
  Qed.

  Definition vis (V : list bool) (x : nat) : Prop := nth_error V x = Some true.
  Definition unvisited (V : list bool) : nat := count_occ Bool.bool_dec V false.

  Lemma unvisited_set : forall V i V', nth_error V i = Some false -> vec_set V i true = Ok V' ->
    unvisited V = S (unvisited V').
  Proof.
    intros V i V' Hi Hs. unfold vec_set in Hs. rewrite Hi in Hs.
    assert (V' = firstn i V ++ true :: skipn (S i) V) by congruence. subst V'.
    unfold unvisited. apply nth_error_split in Hi. destruct Hi as (l1 & l2 & -> & <-).
    rewrite firstn_app, firstn_all, Nat.sub_diag. simpl firstn. rewrite app_nil_r.
    replace (skipn (S (length l1)) (l1 ++ false :: l2)) with l2.
    2:{ rewrite skipn_app, skipn_all2 by lia.
        replace (S (length l1) - length l1) with 1 by lia. reflexivity. }
    rewrite !count_occ_app. simpl. lia.
  Qed.

  Lemma vec_set_back : forall V i V1, nth_error V i = Some false -> vec_set V i true = Ok V1 ->
    vec_set V1 i false = Ok V.
  Proof.
    intros V i V' Hi Hs. unfold vec_set in Hs. rewrite Hi in Hs.
    assert (V' = firstn i V ++ true :: skipn (S i) V) by congruence. subst V'.
    apply nth_error_split in Hi. destruct Hi as (l1 & l2 & -> & <-).
    rewrite firstn_app, firstn_all, Nat.sub_diag. simpl firstn. rewrite app_nil_r.
    replace (skipn (S (length l1)) (l1 ++ false :: l2)) with l2.
    2:{ rewrite skipn_app, skipn_all2 by lia.
        replace (S (length l1) - length l1) with 1 by lia. reflexivity. }
    unfold vec_set. rewrite nth_error_app2, Nat.sub_diag by lia. simpl nth_error. cbv iota.
    rewrite firstn_app, firstn_all, Nat.sub_diag. simpl firstn. rewrite app_nil_r.
    replace (skipn (S (length l1)) (l1 ++ true :: l2)) with l2; auto.
    rewrite skipn_app, skipn_all2 by lia.
    replace (S (length l1) - length l1) with 1 by lia. reflexivity.
  Qed.

  Lemma vec_set_nth {A} (V : list A) i v V' x : vec_set V i v = Ok V' ->
    nth_error V' x = if x =? i then Some v else nth_error V x.
  Proof.
    intro Hs. unfold vec_set in Hs. destruct (nth_error V i) eqn:Hi; [|discriminate].
    assert (V' = firstn i V ++ v :: skipn (S i) V) by congruence. subst V'.
    apply nth_error_split in Hi. destruct Hi as (l1 & l2 & -> & <-).
    rewrite firstn_app, firstn_all, Nat.sub_diag. simpl firstn. rewrite app_nil_r.
    replace (skipn (S (length l1)) (l1 ++ a :: l2)) with l2.
    2:{ rewrite skipn_app, skipn_all2 by lia.
        replace (S (length l1) - length l1) with 1 by lia. reflexivity. }
    destruct (Nat.eqb_spec x (length l1)) as [->|Hne].
    - rewrite nth_error_app2, Nat.sub_diag by lia. reflexivity.
    - destruct (lt_dec x (length l1)).
      + rewrite !nth_error_app1 by lia. auto.
      + rewrite !nth_error_app2 by lia. destruct (x - length l1) eqn:E; [lia|]. reflexivity.
  Qed.

  Lemma vec_set_len {A} (V : list A) i v V' : vec_set V i v = Ok V' -> length V' = length V.
  Proof.
    intro Hs. unfold vec_set in Hs. destruct (nth_error V i) eqn:Hi; [|discriminate].
    assert (V' = firstn i V ++ v :: skipn (S i) V) by congruence. subst V'.
    assert (i < length V) by (apply nth_error_Some; congruence).
    rewrite app_length, firstn_length. cbn [length]. rewrite skipn_length. lia.
  Qed.

  Definition dfs_post (pre : list nat) (from : nat) (routes : list (list nat)) (V : list bool)
      (r : outcome (list (list nat) * list bool)) : Prop :=
    exists ts, r = Ok (routes ++ map (app pre) ts, V) /\ NoDup ts /\
      forall t, In t ts <-> tpath (vis V) from t.

  Lemma DFS_loop (F : nat -> list (list nat) * list bool -> outcome (list (list nat) * list bool))
      pre V base ri : nth_error base ri = Some pre ->
    (forall i acc, nth_error V i = Some false -> dfs_post pre i (base ++ acc) V (F i (base ++ acc, V))) ->
    forall l, NoDup l -> (forall i, In i l -> i < length V) -> forall acc,
    exists ts, foldM (fun rv i => do b <- vec_index (snd rv) i;
                      if b : bool then Ok rv else F i rv) l (base ++ acc, V)
        = Ok (base ++ acc ++ map (app pre) ts, V) /\ NoDup ts /\
      forall t, In t ts <-> exists m, In m l /\ ~ vis V m /\ tpath (vis V) m t.
  Proof.
    intros Hri HF. induction l as [|i l IH]; intros Nl Hl acc.
    - exists []. simpl. rewrite app_nil_r. split; auto. split; [constructor|].
      intro t. split; [tauto|]. intros (m & [] & _).
    - inversion Nl; subst. cbn [foldM snd].
      assert (Hi : i < length V) by (apply Hl; left; auto).
      destruct (nth_error V i) as [b|] eqn:Eb; [|apply nth_error_None in Eb; lia].
      replace (vec_index V i) with (Ok b) by (unfold vec_index; rewrite Eb; reflexivity). cbn [bind].
      destruct b; cbn [bind].
      + destruct (IH H2 (fun j Hj => Hl j (or_intror Hj)) acc) as (ts & -> & Nt & Ht).
        exists ts. split; auto. split; auto. intro t. rewrite Ht. split.
        * intros (m & H3 & H4 & H5). exists m. split; [right|]; auto.
        * intros (m & [<-|H3] & H4 & H5); [contradiction|]. exists m. auto.
      + destruct (HF i acc Eb) as (ts1 & -> & Nt1 & Ht1). cbn [bind].
        rewrite <- app_assoc.
        destruct (IH H2 (fun j Hj => Hl j (or_intror Hj)) (acc ++ map (app pre) ts1)) as (ts & -> & Nt & Ht).
        exists (ts1 ++ ts). split; [|split].
        * rewrite map_app, <- !app_assoc. auto.
        * apply NoDup_app_intro; auto.
          intros t H3 H4. apply Ht1 in H3. apply Ht in H4. destruct H4 as (m & H5 & _ & H4).
          destruct (tpath_hd _ _ _ H3) as [t1 E1]. destruct (tpath_hd _ _ _ H4) as [t2 E2].
          rewrite E1 in E2. injection E2 as -> _. contradiction.
        * intro t. rewrite in_app_iff, Ht1, Ht. split.
          -- intros [H3|(m & H3 & H4 & H5)].
             ++ exists i. split; [left; auto|]. split; auto. unfold vis. congruence.
             ++ exists m. split; [right|]; auto.
          -- intros (m & [<-|H3] & H4 & H5); auto. right. eauto.
  Qed.

  Lemma DFS_unfold fuel from rv ri :
    DFS enum (S fuel) e from to rv ri =
    (let (routes, visited) := rv in
     do pre <- vec_index routes ri;
     let routes1 := routes ++ [pre ++ [from]] in
     let i_route := length routes1 - 1 in
     if from =? to then Ok (routes1, visited)
     else
       do visited1 <- vec_set visited from true;
       do rv2 <- foldM (fun rv i =>
                   do b <- vec_index (snd rv) i;
                   if b : bool then Ok rv
                   else DFS enum fuel e i to rv i_route)
                 (getEdgesFrom enum e from) (routes1, visited1);
       do visited3 <- vec_set (snd rv2) from false;
       Ok (fst rv2, visited3)).
  Proof. reflexivity. Qed.

  Lemma DFS_ok : forall fuel from routes V ri pre,
    length V = length e -> nth_error V from = Some false -> nth_error routes ri = Some pre ->
    unvisited V <= fuel ->
    dfs_post pre from routes V (DFS enum (S fuel) e from to (routes, V) ri).
  Proof.
    induction fuel as [|fuel IH]; intros from routes V ri pre HL Hf Hri Hu.
    { exfalso. unfold unvisited in Hu. assert (In false V) by (eapply nth_error_In; eauto).
      apply (count_occ_In Bool.bool_dec) in H. lia. }
    rewrite DFS_unfold.
    replace (vec_index routes ri) with (Ok pre) by (unfold vec_index; rewrite Hri; reflexivity). cbn [bind].
    cbv zeta. rewrite app_length, Nat.add_sub.
    destruct (Nat.eqb_spec from to) as [->|Hne].
    { exists [[to]]. split; [auto|]. split; [repeat constructor; auto|].
      intro t. split.
      - intros [<-|[]]. constructor.
      - inversion 1; subst; [left; auto|contradiction]. }
    destruct (vec_set_defined V from true) as [V1 E1]; [apply nth_error_Some; congruence|].
    rewrite E1. cbn [bind].
    pose proof (unvisited_set V from V1 Hf E1) as HU.
    pose proof (vec_set_len V from true V1 E1) as HL1.
    assert (Hbase : nth_error (routes ++ [pre ++ [from]]) (length routes) = Some (pre ++ [from])).
    { rewrite nth_error_app2, Nat.sub_diag by lia. auto. }
    destruct (DFS_loop (fun i rv => DFS enum (S fuel) e i to rv (length routes))
      (pre ++ [from]) V1 (routes ++ [pre ++ [from]]) (length routes) Hbase) with
      (l := getEdgesFrom enum e from) (acc := @nil (list nat)) as (ts & Efold & Nt & Ht).
    - intros i acc Hi. apply IH; auto; [lia| |lia].
      rewrite nth_error_app1; auto. rewrite app_length; simpl; lia.
    - apply neighbours_NoDup.
    - intros i Hi. apply neighbours_In in Hi. destruct Hi as [c Hc]. apply Hd in Hc. lia.
    - rewrite app_nil_r in Efold. rewrite Efold. cbn [bind fst snd].
      rewrite (vec_set_back V from V1 Hf E1). cbn [bind].
      exists ([from] :: map (cons from) ts). split; [|split].
      + simpl map. rewrite map_map. f_equal. f_equal. rewrite <- app_assoc. simpl. f_equal.
        f_equal. apply map_ext. intro t. rewrite <- app_assoc. auto.
      + constructor.
        * rewrite in_map_iff. intros (t & Eq & Hin). injection Eq as ->.
          apply Ht in Hin. destruct Hin as (m & _ & _ & Hp). inversion Hp.
        * apply FinFun.Injective_map_NoDup; auto. intros x y Hxy. congruence.
      + assert (HV : forall x, vis V1 x <-> (vis V x \/ x = from)).
        { intro x. unfold vis. rewrite (vec_set_nth V from true V1 x E1).
          destruct (Nat.eqb_spec x from); [subst; tauto|tauto]. }
        intro t. split.
        * intros [<-|Hin]; [constructor|]. apply in_map_iff in Hin. destruct Hin as (t' & <- & Hin).
          apply Ht in Hin. destruct Hin as (m & Hm & Hv & Hp).
          apply neighbours_In in Hm. destruct Hm as [c Hm].
          apply tp_cons with (m := m) (c := c); auto.
          -- intro Hx. apply Hv, HV. auto.
          -- intro Hx. apply Hv, HV. auto.
          -- eapply tpath_ext; eauto.
        * inversion 1; subst; [left; auto|right]. apply in_map. apply Ht.
          exists m. split; [apply neighbours_In; eauto|]. split; [rewrite HV; intros [|]; auto|].
          eapply tpath_ext; eauto. intro x. rewrite HV. tauto.
  Qed.

  Lemma ends_at_iff t x : ends_at x t = true <-> hd_error (rev t) = Some x.
  Proof.
    unfold ends_at. destruct (rev t) as [|y r]; simpl.
    - split; discriminate.
    - rewrite Nat.eqb_eq. split; congruence.
  Qed.

  Lemma allPaths_ok from : from < length e ->
    exists res, allPathsBetween enum e from to = Ok res /\ NoDup res /\
      forall p, In p res <-> simple_path (edge_in e) from to p.
  Proof.
    intro Hf. unfold allPathsBetween, numNodes.
    assert (H0 : nth_error (repeat false (length e)) from = Some false) by (apply nth_error_repeat; auto).
    destruct (DFS_ok (length e) from [[]] (repeat false (length e)) 0 []) as (ts & -> & Nt & Ht); auto.
    { apply repeat_length. }
    { unfold unvisited. rewrite count_occ_repeat_eq; auto. }
    cbn [bind fst]. eexists. split; [reflexivity|]. rewrite map_id. simpl app.
    assert (Hv : forall x, ~ vis (repeat false (length e)) x).
    { intros x Hx. unfold vis in Hx. apply nth_error_In in Hx. apply repeat_spec in Hx. discriminate. }
    split.
    - apply NoDup_filter. constructor; auto. rewrite Ht. inversion 1.
    - intro p. rewrite filter_In, ends_at_iff. split.
      + intros [[<-|H1] H2]; [discriminate|]. apply Ht in H1.
        destruct (tpath_sound _ _ _ H1) as (A & B & C); auto.
        destruct (tpath_hd _ _ _ H1) as [t' ->]. repeat split; auto.
      + intros (A & B & C & (c & D)). split; auto. right. apply Ht.
        eapply tpath_complete; eauto.
  Qed.
End DFSProofs.
