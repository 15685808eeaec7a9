(** From edge maps to matrices, histories, edge editing. *)
From Coq Require Import List Arith ZArith Lia Bool Permutation.
From Verif Require Import Outcome ListAux Graph_Model Graph_Spec Graph_Proofs.
Import ListNotations.

(** ** Association lists *)

Lemma am_find_In {V} k (v : V) m : NoDup (map fst m) ->
  (am_find k m = Some v <-> In (k, v) m).
Proof.
  induction m as [|[k' v'] m IH]; simpl; intro Hn.
  - split; [discriminate|tauto].
  - inversion Hn; subst. destruct (Nat.eqb_spec k' k) as [->|Hne].
    + split.
      * intro H. left. congruence.
      * intros [H|H]; [congruence|]. exfalso. apply H1. apply (in_map fst) in H. exact H.
    + rewrite IH by auto. split; auto. intros [H|H]; auto. congruence.
Qed.

Lemma am_find_None {V} k (m : amap V) : am_find k m = None <-> ~ In k (map fst m).
Proof.
  induction m as [|[k' v'] m IH]; simpl.
  - tauto.
  - destruct (Nat.eqb_spec k' k) as [->|Hne].
    + split; [discriminate|]. intro H. exfalso. auto.
    + rewrite IH. split; auto. intros H [H1|H1]; auto.
Qed.

Lemma am_find_set {V} k (v : V) m k' :
  am_find k' (am_set k v m) = if k =? k' then Some v else am_find k' m.
Proof.
  induction m as [|[a b] m IH]; simpl.
  - destruct (k =? k'); auto.
  - destruct (Nat.eqb_spec a k) as [->|Hne]; simpl.
    + destruct (k =? k'); auto.
    + rewrite IH. destruct (Nat.eqb_spec a k') as [->|]; auto.
      destruct (Nat.eqb_spec k k'); auto. congruence.
Qed.

Lemma am_keys_set {V} k (v : V) m x :
  In x (map fst (am_set k v m)) <-> x = k \/ In x (map fst m).
Proof.
  induction m as [|[a b] m IH]; simpl.
  - intuition.
  - destruct (Nat.eqb_spec a k) as [->|Hne]; simpl; [intuition|]. rewrite IH. intuition.
Qed.

Lemma am_set_NoDup {V} k (v : V) m : NoDup (map fst m) -> NoDup (map fst (am_set k v m)).
Proof.
  induction m as [|[a b] m IH]; simpl; intro H.
  - constructor; auto.
  - inversion H; subst. destruct (Nat.eqb_spec a k) as [->|Hne]; simpl.
    + constructor; auto.
    + constructor; auto. rewrite am_keys_set. intros [->|]; auto.
Qed.

Lemma am_find_erase {V} k (m : amap V) k' : NoDup (map fst m) ->
  am_find k' (am_erase k m) = if k =? k' then None else am_find k' m.
Proof.
  induction m as [|[a b] m IH]; simpl; intro H.
  - destruct (k =? k'); auto.
  - inversion H; subst. destruct (Nat.eqb_spec a k) as [->|Hne]; simpl.
    + destruct (Nat.eqb_spec k k') as [->|]; auto. apply am_find_None. auto.
    + rewrite IH by auto. destruct (Nat.eqb_spec a k') as [->|]; auto.
      destruct (Nat.eqb_spec k k'); auto. congruence.
Qed.

Lemma am_erase_keys {V} k (m : amap V) x : In x (map fst (am_erase k m)) -> In x (map fst m).
Proof.
  induction m as [|[a b] m IH]; simpl; auto.
  destruct (a =? k); simpl; intuition.
Qed.

Lemma am_erase_NoDup {V} k (m : amap V) : NoDup (map fst m) -> NoDup (map fst (am_erase k m)).
Proof.
  induction m as [|[a b] m IH]; simpl; intro H; auto.
  inversion H; subst. destruct (a =? k); simpl; auto. constructor; auto.
  intro H1. apply am_erase_keys in H1. auto.
Qed.

Lemma am_set_length {V} k (v : V) m : am_find k m <> None -> length (am_set k v m) = length m.
Proof.
  induction m as [|[a b] m IH]; simpl; intro H; [exfalso; apply H; reflexivity|].
  destruct (a =? k); simpl; auto.
Qed.

Lemma am_erase_length {V} k (m : amap V) : am_find k m <> None -> S (length (am_erase k m)) = length m.
Proof.
  induction m as [|[a b] m IH]; simpl; intro H; [exfalso; apply H; reflexivity|].
  destruct (a =? k); simpl; auto.
Qed.

(** ** Edge relation *)

Definition look (e : edges_t) (i j : nat) : option Z :=
  match am_find i e with Some m => am_find j m | None => None end.

Lemma look_edge_in e i j c : keys_unique e -> (look e i j = Some c <-> edge_in e i j c).
Proof.
  intros [H1 H2]. unfold look, edge_in. split.
  - destruct (am_find i e) as [m|] eqn:Em; intro H; [|discriminate H].
    apply am_find_In in Em; auto. exists m. split; auto.
    apply am_find_In; auto. eapply H2; eauto.
  - intros (m & Hm & Hj). apply (am_find_In i m e H1) in Hm as Hf. rewrite Hf.
    apply am_find_In; auto. eapply H2; eauto.
Qed.

(** ** Initialisation *)

Section Init.
  Variable n : nat.

  Lemma init_inner src : src < n -> forall m dist next d nx,
    rep n dist d -> rep n next nx -> NoDup (map fst m) ->
    (forall j c, In (j, c) m -> j < n) ->
    exists dn, foldM (fun dn (dest : nat * Z) =>
        do d <- mset (fst dn) src (fst dest) (snd dest);
        do n <- mset (snd dn) src (fst dest) (Z.of_nat (fst dest));
        Ok (d, n)) m (dist, next) = Ok dn /\
      rep n (fst dn) (fun i j => if i =? src then match am_find j m with Some c => c | None => d i j end else d i j) /\
      rep n (snd dn) (fun i j => if i =? src then match am_find j m with Some _ => Z.of_nat j | None => nx i j end else nx i j).
  Proof.
    intros Hs. induction m as [|[j0 c0] m IH]; intros dist next d nx Rd Rn Hnd Hin.
    - simpl. exists (dist, next). split; auto. simpl.
      split; [eapply rep_ext; [exact Rd|]|eapply rep_ext; [exact Rn|]]; intros; destruct (_ =? _); auto.
    - assert (Hj0 : j0 < n) by (eapply Hin; left; reflexivity).
      cbn [foldM fst snd].
      destruct (mset_rep _ _ _ src j0 c0 Rd Hs Hj0) as (dist1 & -> & Rd1). cbn [bind].
      destruct (mset_rep _ _ _ src j0 (Z.of_nat j0) Rn Hs Hj0) as (next1 & -> & Rn1). cbn [bind].
      inversion Hnd; subst.
      destruct (IH dist1 next1 _ _ Rd1 Rn1) as (dn & -> & R1 & R2); auto.
      { intros; eapply Hin; right; eauto. }
      exists dn. split; auto.
      assert (Hno : am_find j0 m = None) by (apply am_find_None; auto).
      split; [eapply rep_ext; [exact R1|]|eapply rep_ext; [exact R2|]];
        intros i j Hi Hj; cbv beta; cbn [am_find];
        destruct (Nat.eqb_spec i src); simpl; auto;
        destruct (Nat.eqb_spec j0 j) as [->|]; rewrite ?Hno, ?Nat.eqb_refl; auto;
        destruct (am_find j m); auto; destruct (Nat.eqb_spec j j0); auto; congruence.
  Qed.

  Lemma init_direct_ok : forall e dist next d nx,
    rep n dist d -> rep n next nx -> keys_unique e ->
    (forall i m, In (i, m) e -> i < n) -> (forall i j c, edge_in e i j c -> j < n) ->
    exists dn, init_direct e (dist, next) = Ok dn /\
      rep n (fst dn) (fun i j => match am_find i e with
                                 | None => d i j
                                 | Some m => if i =? j then 0%Z
                                             else match am_find j m with Some c => c | None => d i j end
                                 end) /\
      rep n (snd dn) (fun i j => match look e i j with Some _ => Z.of_nat j | None => nx i j end).
  Proof.
    unfold init_direct.
    induction e as [|[i0 m0] e IH]; intros dist next d nx Rd Rn [Hk1 Hk2] Hi Hj.
    - simpl. exists (dist, next). auto.
    - assert (Hi0 : i0 < n) by (eapply Hi; left; reflexivity).
      cbn [foldM fst snd].
      destruct (init_inner i0 Hi0 m0 dist next d nx Rd Rn) as ([dist1 next1] & -> & Rd1 & Rn1).
      { eapply Hk2; left; reflexivity. }
      { intros j c H. eapply (Hj i0 j c). exists m0. split; auto. left; auto. }
      cbn [bind fst snd] in *.
      destruct (mset_rep _ _ _ i0 i0 0%Z Rd1 Hi0 Hi0) as (dist2 & -> & Rd2). cbn [bind].
      simpl in Hk1. inversion Hk1; subst.
      destruct (IH dist2 next1 _ _ Rd2 Rn1) as (dn & -> & R1 & R2).
      { split; auto. intros; eapply Hk2; right; eauto. }
      { intros; eapply Hi; right; eauto. }
      { intros i j c (m & Hm & Hc). eapply Hj. exists m. split; [right|]; eauto. }
      exists dn. split; auto.
      assert (Hno : am_find i0 e = None) by (apply am_find_None; auto).
      split; [eapply rep_ext; [exact R1|]|eapply rep_ext; [exact R2|]];
        intros i j Hi' Hj'; cbv beta; unfold look; cbn [am_find].
      + destruct (Nat.eqb_spec i0 i) as [->|Hne].
        * rewrite Hno, !Nat.eqb_refl. simpl. rewrite (Nat.eqb_sym i j).
          destruct (j =? i); auto.
        * destruct (am_find i e) as [a|].
          -- destruct (i =? j); auto. destruct (am_find j a); auto.
             destruct (Nat.eqb_spec i i0); simpl; auto. congruence.
          -- destruct (Nat.eqb_spec i i0); simpl; auto. congruence.
      + destruct (Nat.eqb_spec i0 i) as [->|Hne].
        * rewrite Hno, !Nat.eqb_refl. auto.
        * destruct (Nat.eqb_spec i i0); [congruence|]. auto.
  Qed.

  (** An id that is not below [n] makes the initialisation undefined. *)
  Lemma init_inner_bad src : forall m dist next d nx,
    rep n dist d -> rep n next nx ->
    (exists j c, In (j, c) m /\ n <= j) \/ (n <= src /\ m <> []) ->
    foldM (fun dn (dest : nat * Z) =>
        do d <- mset (fst dn) src (fst dest) (snd dest);
        do n <- mset (snd dn) src (fst dest) (Z.of_nat (fst dest));
        Ok (d, n)) m (dist, next) = UB.
  Proof.
    induction m as [|[j0 c0] m IH]; intros dist next d nx Rd Rn H.
    - destruct H as [(j & c & [] & _)|[_ H]]; contradiction.
    - cbn [foldM fst snd].
      destruct (le_lt_dec n src) as [Hs|Hs].
      { rewrite (mset_oob _ _ _ src j0 c0 Rd) by auto. reflexivity. }
      destruct (le_lt_dec n j0) as [Hj0|Hj0].
      { rewrite (mset_oob _ _ _ src j0 c0 Rd) by auto. reflexivity. }
      destruct (mset_rep _ _ _ src j0 c0 Rd Hs Hj0) as (dist1 & -> & Rd1). cbn [bind].
      destruct (mset_rep _ _ _ src j0 (Z.of_nat j0) Rn Hs Hj0) as (next1 & -> & Rn1). cbn [bind].
      eapply IH; eauto. left. destruct H as [(j & c & [H|H] & Hn)|[H _]]; [|eauto|lia].
      injection H as -> ->. lia.
  Qed.

  Lemma init_inner_any src : forall m dist next d nx,
    rep n dist d -> rep n next nx ->
    let r := foldM (fun dn (dest : nat * Z) =>
        do d <- mset (fst dn) src (fst dest) (snd dest);
        do n <- mset (snd dn) src (fst dest) (Z.of_nat (fst dest));
        Ok (d, n)) m (dist, next) in
    r = UB \/ exists dn d' nx', r = Ok dn /\ rep n (fst dn) d' /\ rep n (snd dn) nx'.
  Proof.
    induction m as [|[j0 c0] m IH]; intros dist next d nx Rd Rn r; subst r.
    - right. exists (dist, next), d, nx. auto.
    - cbn [foldM fst snd].
      destruct (le_lt_dec n src) as [Hs|Hs].
      { left. rewrite (mset_oob _ _ _ src j0 c0 Rd) by auto. reflexivity. }
      destruct (le_lt_dec n j0) as [Hj0|Hj0].
      { left. rewrite (mset_oob _ _ _ src j0 c0 Rd) by auto. reflexivity. }
      destruct (mset_rep _ _ _ src j0 c0 Rd Hs Hj0) as (dist1 & -> & Rd1). cbn [bind].
      destruct (mset_rep _ _ _ src j0 (Z.of_nat j0) Rn Hs Hj0) as (next1 & -> & Rn1). cbn [bind].
      eapply IH; eauto.
  Qed.

  Lemma init_direct_bad : forall e dist next d nx,
    rep n dist d -> rep n next nx ->
    (exists i m, In (i, m) e /\ n <= i) \/ (exists i j c, edge_in e i j c /\ n <= j) ->
    init_direct e (dist, next) = UB.
  Proof.
    unfold init_direct.
    induction e as [|[i0 m0] e IH]; intros dist next d nx Rd Rn H.
    - destruct H as [(i & m & [] & _)|(i & j & c & (m & [] & _) & _)].
    - cbn [foldM fst snd].
      destruct (init_inner_any i0 m0 dist next d nx Rd Rn)
        as [->|([dist1 next1] & d' & nx' & E1 & R1 & R2)]; [reflexivity|].
      assert (Hm0 : ~ exists j c, In (j, c) m0 /\ n <= j).
      { intro Hx. rewrite (init_inner_bad i0 m0 dist next d nx Rd Rn) in E1 by auto. discriminate. }
      rewrite E1. cbn [bind fst snd] in *.
      destruct (le_lt_dec n i0) as [Hi0|Hi0].
      { rewrite (mset_oob _ _ _ i0 i0 0%Z R1) by auto. reflexivity. }
      destruct (mset_rep _ _ _ i0 i0 0%Z R1 Hi0 Hi0) as (dist2 & -> & Rd2). cbn [bind].
      eapply IH; eauto.
      destruct H as [(i & m & [H|H] & Hn)|(i & j & c & (m & [H|H] & Hc) & Hn)].
      + injection H as -> ->. lia.
      + left. eauto.
      + injection H as -> ->. exfalso. apply Hm0. eauto.
      + right. exists i, j, c. split; auto. exists m. auto.
  Qed.
End Init.

(** ** The whole computation on a dense graph *)

Definition good_matrices (e : edges_t) (INF : Z) (dist next : mat) : Prop :=
  exists d nx L, rep (length e) dist d /\ rep (length e) next nx /\
    INV (length e) INF (edge_in e) (length e) d nx L.

Lemma edge_in_fun e i j c c' : keys_unique e -> edge_in e i j c -> edge_in e i j c' -> c = c'.
Proof.
  intros Hk H1 H2. apply (look_edge_in e) in H1; auto. apply (look_edge_in e) in H2; auto. congruence.
Qed.

Lemma edge_in_dom e i j c : ids_dense e -> edge_in e i j c -> i < length e /\ j < length e.
Proof.
  intros [H1 H2] H. split; [|eapply H2; eauto]. destruct H as (m & Hm & _). eapply H1; eauto.
Qed.

Lemma dense_all e : keys_unique e -> ids_dense e ->
  forall i, i < length e -> exists m, am_find i e = Some m.
Proof.
  intros [Hk _] [Hd _] i Hi.
  destruct (am_find i e) as [m|] eqn:Em; [eauto|]. exfalso.
  apply am_find_None in Em.
  assert (Hincl : incl (i :: map fst e) (seq 0 (length e))).
  { intros x [<-|Hx]; apply in_seq; [lia|]. apply in_map_iff in Hx.
    destruct Hx as ([k v] & <- & Hx). apply Hd in Hx. simpl. lia. }
  apply NoDup_incl_length in Hincl; [|constructor; auto].
  simpl in Hincl. rewrite map_length, seq_length in Hincl. lia.
Qed.

Lemma shortest_ok e INF : keys_unique e -> ids_dense e -> costs_ok INF e ->
  exists dist next, shortestPathsAndCosts e INF = Ok (dist, next) /\
    good_matrices e INF dist next.
Proof.
  intros Hk Hd Hc. unfold shortestPathsAndCosts, initializeMatrices, numNodes.
  set (n := length e). destruct Hc as [[Hp Hs] Hc].
  destruct (init_direct_ok n e (mat_const n INF) (mat_const n (-1)%Z) _ _
              (mat_const_rep n INF) (mat_const_rep n (-1)%Z) Hk) as ([dist1 next1] & -> & R1 & R2).
  { apply Hd. } { apply Hd. }
  cbn [bind fst snd] in *.
  assert (HI : INV n INF (edge_in e) 0
    (fun i j => if i =? j then 0%Z else match look e i j with Some c => c | None => INF end)
    (fun i j => match look e i j with Some _ => Z.of_nat j | None => (-1)%Z end)
    (fun i j => if i =? j then 0 else 1)).
  { constructor.
    - intros i _. rewrite Nat.eqb_refl. auto.
    - intros i j _ _. destruct (i =? j); [lia|]. destruct (look e i j) eqn:El; [|lia].
      apply look_edge_in in El; auto. apply Hc in El. lia.
    - intros i j c Hw Hlt. inversion Hw; subst; [|lia].
      destruct (Nat.eqb_spec i j).
      + apply Hc in H. lia.
      + apply look_edge_in in H; auto. rewrite H. lia.
    - intros i j Hi Hj Hne Hlt. destruct (Nat.eqb_spec i j); [contradiction|].
      destruct (look e i j) as [c|] eqn:El; [|lia].
      exists j, c. rewrite !Nat.eqb_refl. repeat split; auto; [|lia].
      apply look_edge_in; auto.
    - intros i j Hi Hj Hne Hx. destruct (Nat.eqb_spec i j); [contradiction|].
      destruct (look e i j) as [c|] eqn:El; auto.
      apply look_edge_in in El; auto. apply Hc in El. lia.
    - intros i _. rewrite Nat.eqb_refl. auto. }
  assert (R1' : rep n dist1 (fun i j => if i =? j then 0%Z else match look e i j with Some c => c | None => INF end)).
  { eapply rep_ext; [exact R1|]. intros i j Hi Hj. cbv beta. unfold look.
    destruct (dense_all e Hk Hd i Hi) as [m ->]. auto. }
  destruct (floyd_warshall_ok n INF Hs (edge_in e)
    (fun i j c H => edge_in_dom e i j c Hd H) Hc _ _ _ dist1 next1 HI R1' R2)
    as (dist2 & next2 & d2 & nx2 & L2 & -> & R3 & R4 & HI2).
  cbn [bind fst snd].
  rewrite (reconstruct_ok n INF (edge_in e) Hc d2 nx2 L2 HI2 dist2 next2 R3 R4).
  cbn [bind]. exists dist2, next2. split; auto. exists d2, nx2, L2. auto.
Qed.

Lemma shortest_bad e INF : ~ ids_dense e -> shortestPathsAndCosts e INF = UB.
Proof.
  intros Hd. unfold shortestPathsAndCosts, initializeMatrices, numNodes.
  set (n := length e).
  assert (H : (exists i m, In (i, m) e /\ n <= i) \/ (exists i j c, edge_in e i j c /\ n <= j)).
  { destruct (existsb (fun p => n <=? fst p) e) eqn:E1.
    - apply existsb_exists in E1. destruct E1 as ([i m] & H1 & H2). apply Nat.leb_le in H2.
      left. eauto.
    - destruct (existsb (fun p => existsb (fun q => n <=? fst q) (snd p)) e) eqn:E2.
      + apply existsb_exists in E2. destruct E2 as ([i m] & H1 & H2).
        apply existsb_exists in H2. destruct H2 as ([j c] & H2 & H3). apply Nat.leb_le in H3.
        right. exists i, j, c. split; auto. exists m. auto.
      + exfalso. apply Hd. split.
        * intros i m Hi. destruct (lt_dec i (length e)); auto. exfalso.
          assert (existsb (fun p : nat * amap Z => n <=? fst p) e = true).
          { apply existsb_exists. exists (i, m). split; auto. apply Nat.leb_le. unfold n. simpl. lia. }
          congruence.
        * intros i j c (m & Hm & Hc). destruct (lt_dec j (length e)); auto. exfalso.
          assert (existsb (fun p : nat * amap Z => existsb (fun q => n <=? fst q) (snd p)) e = true).
          { apply existsb_exists. exists (i, m). split; auto. apply existsb_exists.
            exists (j, c). split; auto. apply Nat.leb_le. unfold n. simpl. lia. }
          congruence. }
  rewrite (init_direct_bad n e (mat_const n INF) (mat_const n (-1)%Z) _ _
    (mat_const_rep n INF) (mat_const_rep n (-1)%Z) H). reflexivity.
Qed.

(** ** Queries on good matrices *)

Section Queries.
  Variable e : edges_t.
  Variable INF : Z.
  Hypothesis Hk : keys_unique e.
  Hypothesis Hd : ids_dense e.
  Hypothesis Hc : costs_ok INF e.
  Variables dist next : mat.
  Hypothesis HG : good_matrices e INF dist next.

  Lemma dist_query i j : i < length e -> j < length e ->
    exists c, mget dist i j = Ok c /\ is_shortest (edge_in e) INF i j c.
  Proof.
    intros Hi Hj. destruct HG as (d & nx & L & R1 & R2 & HI).
    exists (d i j). split; [apply (mget_rep _ _ _ _ _ R1); auto|].
    split.
    - pose proof (inv_rng _ _ _ _ _ _ _ HI i j Hi Hj).
      destruct (Z.eq_dec (d i j) INF); auto. left. split; [lia|].
      eapply dist_attained; eauto; [apply Hc|lia].
    - intros c' Hw Hlt. eapply dist_lower; eauto.
      intros. eapply edge_in_dom; eauto.
  Qed.

  Lemma dist_query_diag i : i < length e -> mget dist i i = Ok 0%Z.
  Proof.
    intros Hi. destruct HG as (d & nx & L & R1 & R2 & HI).
    rewrite (mget_rep _ _ _ _ _ R1) by auto. f_equal. eapply inv_diag; eauto.
  Qed.

  Lemma path_query i j : i < length e -> j < length e ->
    exists p c, reconstructPath next i j = Ok p /\ mget dist i j = Ok c /\
      (p = [] <-> i = j \/ c = INF) /\
      (p <> [] -> simple_path (edge_in e) i j p /\ route (edge_in e) p c).
  Proof.
    intros Hi Hj. destruct HG as (d & nx & L & R1 & R2 & HI).
    unfold reconstructPath.
    assert (Hlen : length next = length e) by apply R2.
    rewrite Hlen.
    destruct (Nat.eqb_spec i j) as [->|Hne].
    { exists [], (d j j). split; auto. split; [apply (mget_rep _ _ _ _ _ R1); auto|].
      split; [split; auto|congruence]. }
    rewrite (mget_rep _ _ _ _ _ R2) by auto. cbn [bind].
    pose proof (inv_rng _ _ _ _ _ _ _ HI i j Hi Hj).
    destruct (Z.eqb_spec (nx i j) (-1)) as [Hz|Hz].
    - exists [], (d i j). split; auto. split; [apply (mget_rep _ _ _ _ _ R1); auto|].
      apply (next_neg1_iff _ _ _ _ _ _ HI i j Hi Hj Hne) in Hz. split; [split; auto|congruence].
    - destruct (Z.eq_dec (d i j) INF) as [Hx|Hx].
      { exfalso. apply Hz. eapply next_neg1_iff; eauto. }
      destruct (follow_ok (length e) INF (edge_in e) (proj2 Hc) d nx L HI next i j R2 Hi Hj) as (p & Hf & Hr & Hl & Hn); [lia|].
      rewrite Hf. cbn [bind]. exists (i :: p), (d i j). split; auto.
      split; [apply (mget_rep _ _ _ _ _ R1); auto|].
      split; [split; [discriminate|intros [|]; [contradiction|lia]]|].
      intros _. split; auto. repeat split; auto. eauto.
  Qed.
End Queries.
