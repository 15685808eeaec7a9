(** Floyd-Warshall: correctness of distances and next-hops. *)
From Coq Require Import List Arith ZArith Lia Bool.
From Verif Require Import Outcome ListAux Graph_Model Graph_Spec.
Import ListNotations.

(** ** Matrices as functions *)

Definition rep {A} (n : nat) (m : list (list A)) (f : nat -> nat -> A) : Prop :=
  length m = n /\
  forall i, i < n -> exists row, nth_error m i = Some row /\ length row = n /\
    forall j, j < n -> nth_error row j = Some (f i j).

Lemma mget_rep {A} n (m : list (list A)) f i j :
  rep n m f -> i < n -> j < n -> mget m i j = Ok (f i j).
Proof.
  intros [_ H] Hi Hj. destruct (H i Hi) as (row & E & _ & Hr).
  unfold mget, vec_index. rewrite E. simpl. rewrite (Hr j Hj). reflexivity.
Qed.

Lemma vec_set_defined {A} (l : list A) i a : i < length l -> exists r, vec_set l i a = Ok r.
Proof.
  intro H. unfold vec_set. destruct (nth_error l i) eqn:E; eauto.
  apply nth_error_None in E. lia.
Qed.

Lemma mset_rep {A} n (m : list (list A)) f i j v :
  rep n m f -> i < n -> j < n ->
  exists m', mset m i j v = Ok m' /\
    rep n m' (fun a b => if (a =? i) && (b =? j) then v else f a b).
Proof.
  intros [L H] Hi Hj. destruct (H i Hi) as (row & E & Lr & Hr).
  unfold mset, vec_index. rewrite E. cbn [bind].
  destruct (vec_set_defined row j v) as [row' Er]; [lia|]. rewrite Er. cbn [bind].
  destruct (vec_set_defined m i row') as [m' Em]; [lia|].
  exists m'. split; auto.
  destruct (vec_set_ok _ _ _ _ Er) as (R1 & R2 & R3 & R4).
  destruct (vec_set_ok _ _ _ _ Em) as (M1 & M2 & M3 & M4).
  split; [lia|]. intros a Ha. destruct (Nat.eqb_spec a i) as [->|Hne].
  - exists row'. repeat split; auto; [lia|]. intros b Hb. simpl.
    destruct (Nat.eqb_spec b j) as [->|Hb']; auto. rewrite R4 by auto. auto.
  - rewrite M4 by auto. simpl. apply H; auto.
Qed.

Lemma mset_oob {A} n (m : list (list A)) f i j v :
  rep n m f -> n <= i \/ n <= j -> mset m i j v = UB.
Proof.
  intros [L H] Hij. unfold mset, vec_index.
  destruct (nth_error m i) as [row|] eqn:E; auto. cbn [bind].
  assert (Hi : i < n) by (rewrite <- L; apply nth_error_Some; congruence).
  destruct (H i Hi) as (row' & E' & Lr & _). assert (row' = row) by congruence. subst.
  unfold vec_set at 1. destruct (nth_error row j) eqn:Ej; auto.
  assert (j < length row) by (apply nth_error_Some; congruence). lia.
Qed.

Lemma rep_ext {A} n (m : list (list A)) f g :
  rep n m f -> (forall i j, i < n -> j < n -> f i j = g i j) -> rep n m g.
Proof.
  intros [L H] E. split; auto. intros i Hi. destruct (H i Hi) as (row & E1 & L1 & H1).
  exists row. repeat split; auto. intros j Hj. rewrite <- E by auto. auto.
Qed.

Lemma mat_const_rep {A} n (v : A) : rep n (mat_const n v) (fun _ _ => v).
Proof.
  unfold mat_const. split; [apply repeat_length|]. intros i Hi.
  exists (repeat v n). split; [|split; [apply repeat_length|]].
  - apply nth_error_repeat; auto.
  - intros. apply nth_error_repeat; auto.
Qed.

Lemma rep_fun {A} n (m m' : list (list A)) f : rep n m f -> rep n m' f -> m = m'.
Proof.
  intros [L H] [L' H']. apply nth_error_ext. intro i.
  destruct (lt_dec i n) as [Hi|Hi].
  - destruct (H i Hi) as (r & E & Lr & Hr). destruct (H' i Hi) as (r' & E' & Lr' & Hr').
    rewrite E, E'. f_equal. apply nth_error_ext. intro j.
    destruct (lt_dec j n) as [Hj|Hj].
    + rewrite Hr, Hr' by auto. auto.
    + transitivity (@None A); [|symmetry]; apply nth_error_None; lia.
  - transitivity (@None (list A)); [|symmetry]; apply nth_error_None; lia.
Qed.

(** A for loop over indices with an invariant that also gives definedness. *)
Lemma foldM_seq {S} (f : S -> nat -> outcome S) (I : nat -> S -> Prop) : forall n start s,
  (forall k s, start <= k < start + n -> I k s -> exists s', f s k = Ok s' /\ I (Datatypes.S k) s') ->
  I start s -> exists s', foldM f (seq start n) s = Ok s' /\ I (start + n) s'.
Proof.
  induction n; intros start s H Hs; simpl.
  - exists s. rewrite Nat.add_0_r. auto.
  - destruct (H start s) as (s1 & E & H1); [lia|auto|]. rewrite E. cbn [bind].
    destruct (IHn (Datatypes.S start) s1) as (s' & E' & H'); auto.
    { intros k s0 Hk. apply H. lia. }
    exists s'. split; auto. rewrite Nat.add_succ_r. auto.
Qed.

Section FW.
  Variable n : nat.
  Variable INF : Z.
  Hypothesis INF_pos : (0 < INF)%Z.
  Hypothesis INF_small : (INF <= 4611686018427387904)%Z.
  Variable E : nat -> nat -> Z -> Prop.
  Hypothesis E_dom : forall i j c, E i j c -> i < n /\ j < n.
  Hypothesis E_cost : forall i j c, E i j c -> (0 <= c < INF)%Z.
  Hypothesis E_fun : forall i j c c', E i j c -> E i j c' -> c = c'.

  (** Walks of at least one edge with all inner nodes below [K]. *)
  Inductive wk (K : nat) : nat -> nat -> Z -> Prop :=
  | wk_edge : forall i j c, E i j c -> wk K i j c
  | wk_step : forall i m j c c', E i m c -> m < K -> wk K m j c' -> wk K i j (c + c')%Z.

  Lemma wk_pos K i j c : wk K i j c -> (0 <= c)%Z.
  Proof. induction 1; [apply E_cost in H; lia|apply E_cost in H; lia]. Qed.

  Lemma wk_dom K i j c : wk K i j c -> i < n /\ j < n.
  Proof.
    induction 1; [apply E_dom in H; auto|]. apply E_dom in H. tauto.
  Qed.

  Lemma wk_mono K K' i j c : K <= K' -> wk K i j c -> wk K' i j c.
  Proof. intros HK. induction 1; [constructor; auto|eapply wk_step; eauto; lia]. Qed.

  Lemma wk_split k i j c : wk (S k) i j c ->
    wk k i j c \/ exists c1 c3, wk k i k c1 /\ wk k k j c3 /\ (c1 + c3 <= c)%Z.
  Proof.
    induction 1 as [i j c H|i m j c c' H Hm Hw IH].
    - left. constructor; auto.
    - destruct (Nat.eq_dec m k) as [->|Hne].
      + right. destruct IH as [IH|(c1 & c3 & W1 & W3 & Hle)].
        * exists c, c'. split; [constructor; auto|]. split; auto. lia.
        * exists c, c3. split; [constructor; auto|]. split; auto.
          apply wk_pos in W1. lia.
      + assert (Hm' : m < k) by lia.
        destruct IH as [IH|(c1 & c3 & W1 & W3 & Hle)].
        * left. eapply wk_step; eauto.
        * right. exists (c + c1)%Z, c3. split; [eapply wk_step; eauto|]. split; auto. lia.
  Qed.

  Lemma walk_wk i j c : walk E i j c -> (i = j /\ c = 0%Z) \/ wk n i j c.
  Proof.
    induction 1 as [i|i m j c c' H Hw IH]; auto. right.
    destruct IH as [[-> ->]|IH].
    - rewrite Z.add_0_r. constructor; auto.
    - eapply wk_step; eauto. apply E_dom in H. tauto.
  Qed.

  Definition cond (d : nat -> nat -> Z) (k i j : nat) : bool :=
    ((d i k <? INF) && (d k j <? INF) && (d i k + d k j <? d i j))%Z.

  Definition pd (d : nat -> nat -> Z) (k i j : nat) : Z :=
    if cond d k i j then (d i k + d k j)%Z else d i j.

  Definition pn (d nx : nat -> nat -> Z) (k i j : nat) : Z :=
    if cond d k i j then nx i k else nx i j.

  Record INV (K : nat) (d nx : nat -> nat -> Z) (L : nat -> nat -> nat) : Prop := {
    inv_diag : forall i, i < n -> d i i = 0%Z;
    inv_rng : forall i j, i < n -> j < n -> (0 <= d i j <= INF)%Z;
    inv_low : forall i j c, wk K i j c -> (c < INF)%Z -> (d i j <= c)%Z;
    inv_next : forall i j, i < n -> j < n -> i <> j -> (d i j < INF)%Z ->
      exists m c, nx i j = Z.of_nat m /\ m < n /\ E i m c /\ d i j = (c + d m j)%Z /\
        (m = j \/ m < K) /\ L i j = S (L m j);
    inv_none : forall i j, i < n -> j < n -> i <> j -> d i j = INF -> nx i j = (-1)%Z;
    inv_L0 : forall i, i < n -> L i i = 0
  }.

  Section Phase.
    Variable k : nat.
    Hypothesis Hk : k < n.
    Variables d nx : nat -> nat -> Z.
    Variable L : nat -> nat -> nat.
    Hypothesis HI : INV k d nx L.

    Lemma cond_true i j : i < n -> j < n -> cond d k i j = true ->
      (d i k < INF)%Z /\ (d k j < INF)%Z /\ (d i k + d k j < d i j)%Z /\
      i <> k /\ j <> k /\ i <> j.
    Proof.
      intros Hi Hj H. unfold cond in H.
      apply andb_true_iff in H. destruct H as [H H3]. apply andb_true_iff in H.
      destruct H as [H1 H2]. apply Z.ltb_lt in H1, H2, H3.
      pose proof (inv_rng _ _ _ _ HI i k Hi Hk). pose proof (inv_rng _ _ _ _ HI k j Hk Hj).
      repeat split; auto; intros ->.
      - rewrite (inv_diag _ _ _ _ HI k Hk) in H3. lia.
      - rewrite (inv_diag _ _ _ _ HI k Hk) in H3. lia.
      - rewrite (inv_diag _ _ _ _ HI j Hj) in H3. lia.
    Qed.

    Lemma cond_intro i j : (d i k < INF)%Z -> (d k j < INF)%Z ->
      (d i k + d k j < d i j)%Z -> cond d k i j = true.
    Proof.
      intros H1 H2 H3. unfold cond. apply Z.ltb_lt in H1, H2, H3. rewrite H1, H2, H3. auto.
    Qed.

    Lemma cond_col i : i < n -> cond d k i k = false.
    Proof.
      intro Hi. destruct (cond d k i k) eqn:C; auto.
      apply cond_true in C; auto. lia.
    Qed.
    Lemma cond_row j : j < n -> cond d k k j = false.
    Proof.
      intro Hj. destruct (cond d k k j) eqn:C; auto.
      apply cond_true in C; auto. lia.
    Qed.
    Lemma cond_diag i : i < n -> cond d k i i = false.
    Proof.
      intro Hi. destruct (cond d k i i) eqn:C; auto.
      apply cond_true in C; auto. lia.
    Qed.

    Lemma wk_exists_gen : forall l i j, L i j = l -> i < n -> j < n -> i <> j ->
      (d i j < INF)%Z -> wk k i j (d i j).
    Proof.
      induction l as [|l IH]; intros i j HL Hi Hj Hne Hd;
        destruct (inv_next _ _ _ _ HI i j Hi Hj Hne Hd) as (m & c & Hn & Hm & He & Hdd & Hor & HLL);
        [lia|].
      destruct (Nat.eq_dec m j) as [->|Hmj].
      - rewrite Hdd, (inv_diag _ _ _ _ HI j Hj), Z.add_0_r. constructor; auto.
      - rewrite Hdd. destruct Hor as [|Hor]; [contradiction|].
        eapply wk_step; eauto. apply IH; auto; [lia|].
        pose proof (E_cost _ _ _ He). lia.
    Qed.

    Lemma wk_exists i j : i < n -> j < n -> i <> j -> (d i j < INF)%Z -> wk k i j (d i j).
    Proof. intros. eapply wk_exists_gen; eauto. Qed.

    Definition L' (i j : nat) : nat := if cond d k i j then L i k + L k j else L i j.

    Lemma phase_inv : INV (S k) (pd d k) (pn d nx k) L'.
    Proof.
      constructor.
      - intros i Hi. unfold pd. rewrite cond_diag by auto. apply (inv_diag _ _ _ _ HI); auto.
      - intros i j Hi Hj. unfold pd. destruct (cond d k i j) eqn:C.
        + apply cond_true in C; auto.
          pose proof (inv_rng _ _ _ _ HI i k Hi Hk). pose proof (inv_rng _ _ _ _ HI k j Hk Hj).
          pose proof (inv_rng _ _ _ _ HI i j Hi Hj). lia.
        + apply (inv_rng _ _ _ _ HI); auto.
      - intros i j c Hw Hc.
        destruct (wk_dom _ _ _ _ Hw) as [Hi Hj].
        assert (Hle : (pd d k i j <= d i j)%Z).
        { unfold pd. destruct (cond d k i j) eqn:C; [|lia]. apply cond_true in C; auto. lia. }
        apply wk_split in Hw. destruct Hw as [Hw|(c1 & c3 & W1 & W3 & Hle2)].
        + pose proof (inv_low _ _ _ _ HI _ _ _ Hw Hc). lia.
        + pose proof (wk_pos _ _ _ _ W1). pose proof (wk_pos _ _ _ _ W3).
          pose proof (inv_low _ _ _ _ HI _ _ _ W1 ltac:(lia)).
          pose proof (inv_low _ _ _ _ HI _ _ _ W3 ltac:(lia)).
          unfold pd. destruct (cond d k i j) eqn:C; [lia|].
          destruct (Z_lt_le_dec (d i k + d k j) (d i j)) as [Hlt|]; [|lia].
          rewrite cond_intro in C by lia. discriminate.
      - intros i j Hi Hj Hne Hd. unfold pd in Hd. unfold pd, pn, L'.
        destruct (cond d k i j) eqn:C.
        + destruct (cond_true i j Hi Hj C) as (C1 & C2 & C3 & C4 & C5 & C6).
          destruct (inv_next _ _ _ _ HI i k Hi Hk C4 C1) as (m & c & Hn & Hm & He & Hdd & Hor & HLL).
          pose proof (E_cost _ _ _ He) as Hc.
          exists m, c. split; auto. split; auto. split; auto.
          destruct (Nat.eq_dec m k) as [->|Hmk].
          * rewrite (cond_row j Hj).
            rewrite (inv_diag _ _ _ _ HI k Hk) in Hdd.
            rewrite (inv_L0 _ _ _ _ HI k Hk) in HLL.
            split; [lia|]. split; [right; lia|]. lia.
          * destruct Hor as [|Hor]; [contradiction|].
            assert (Cm : cond d k m j = true).
            { pose proof (inv_rng _ _ _ _ HI m k Hm Hk). pose proof (inv_rng _ _ _ _ HI k j Hk Hj).
              pose proof (inv_rng _ _ _ _ HI i j Hi Hj).
              apply cond_intro; try lia.
              destruct (Z_lt_le_dec (d m k + d k j) (d m j)) as [|Hle]; auto. exfalso.
              destruct (Nat.eq_dec m j) as [->|Hmj].
              - pose proof (inv_low _ _ _ _ HI i j c (wk_edge _ _ _ _ He) ltac:(lia)). lia.
              - assert (W : wk k m j (d m j)) by (apply wk_exists; auto; lia).
                pose proof (inv_low _ _ _ _ HI i j _ (wk_step k _ _ _ _ _ He Hor W) ltac:(lia)). lia. }
            rewrite Cm. split; [lia|]. split; [right; lia|]. lia.
        + destruct (inv_next _ _ _ _ HI i j Hi Hj Hne Hd) as (m & c & Hn & Hm & He & Hdd & Hor & HLL).
          pose proof (E_cost _ _ _ He) as Hc.
          exists m, c. split; auto. split; auto. split; auto.
          assert (Cm : cond d k m j = false).
          { destruct (cond d k m j) eqn:Cm; auto. exfalso.
            destruct (cond_true m j Hm Hj Cm) as (C1 & C2 & C3 & C4 & C5 & C6).
            destruct Hor as [|Hor]; [contradiction|].
            pose proof (inv_rng _ _ _ _ HI k j Hk Hj). pose proof (inv_rng _ _ _ _ HI m k Hm Hk).
            assert (W : wk k m k (d m k)) by (apply wk_exists; auto).
            pose proof (inv_low _ _ _ _ HI i k _ (wk_step k _ _ _ _ _ He Hor W) ltac:(lia)).
            rewrite cond_intro in C by lia. discriminate. }
          rewrite Cm. split; auto. split; auto. destruct Hor; [left|right]; auto.
      - intros i j Hi Hj Hne Hd. unfold pd in Hd. unfold pn. destruct (cond d k i j) eqn:C.
        + apply cond_true in C; auto. pose proof (inv_rng _ _ _ _ HI i j Hi Hj). lia.
        + apply (inv_none _ _ _ _ HI); auto.
      - intros i Hi. unfold L'. rewrite cond_diag by auto. apply (inv_L0 _ _ _ _ HI); auto.
    Qed.

    (** The in-place loops of phase [k] compute the simultaneous update. *)
    Definition mix {A} (i0 j0 : nat) (new old : nat -> nat -> A) (i j : nat) : A :=
      if (i <? i0) || ((i =? i0) && (j <? j0)) then new i j else old i j.

    Lemma fw_body_ok i0 j0 dist next :
      i0 < n -> j0 < n ->
      rep n dist (mix i0 j0 (pd d k) d) -> rep n next (mix i0 j0 (pn d nx k) nx) ->
      exists dn, fw_body INF k i0 (dist, next) j0 = Ok dn /\
        rep n (fst dn) (mix i0 (S j0) (pd d k) d) /\
        rep n (snd dn) (mix i0 (S j0) (pn d nx k) nx).
    Proof.
      intros Hi Hj Rd Rn. unfold fw_body.
      assert (Pik : mix i0 j0 (pd d k) d i0 k = d i0 k).
      { unfold mix. destruct (_ || _); auto. unfold pd. rewrite cond_col; auto. }
      assert (Pkj : mix i0 j0 (pd d k) d k j0 = d k j0).
      { unfold mix. destruct (_ || _); auto. unfold pd. rewrite cond_row; auto. }
      assert (Pij : mix i0 j0 (pd d k) d i0 j0 = d i0 j0).
      { unfold mix. rewrite !Nat.ltb_irrefl, andb_false_r. auto. }
      assert (Nik : mix i0 j0 (pn d nx k) nx i0 k = nx i0 k).
      { unfold mix. destruct (_ || _); auto. unfold pn. rewrite cond_col; auto. }
      rewrite (mget_rep _ _ _ _ _ Rd Hi Hk), Pik. cbn [bind].
      assert (Hsame : cond d k i0 j0 = false ->
        rep n dist (mix i0 (S j0) (pd d k) d) /\ rep n next (mix i0 (S j0) (pn d nx k) nx)).
      { intro C. split; [eapply rep_ext; [exact Rd|]|eapply rep_ext; [exact Rn|]];
          intros a b Ha Hb; unfold mix, pd, pn;
          destruct (Nat.ltb_spec a i0), (Nat.eqb_spec a i0), (Nat.ltb_spec b j0), (Nat.ltb_spec b (S j0));
          simpl; subst; try lia; auto; assert (b = j0) by lia; subst; rewrite C; auto. }
      destruct (Z.ltb_spec (d i0 k) INF) as [C1|C1].
      2:{ exists (dist, next). split; auto. apply Hsame. unfold cond.
          apply Z.ltb_ge in C1. rewrite C1. auto. }
      rewrite (mget_rep _ _ _ _ _ Rd Hk Hj), Pkj. cbn [bind].
      destruct (Z.ltb_spec (d k j0) INF) as [C2|C2].
      2:{ exists (dist, next). split; auto. apply Hsame. unfold cond.
          apply Z.ltb_ge in C2. rewrite C2, andb_false_r. auto. }
      rewrite (mget_rep _ _ _ _ _ Rd Hi Hj), Pij. cbn [bind].
      pose proof (inv_rng _ _ _ _ HI i0 k Hi Hk). pose proof (inv_rng _ _ _ _ HI k j0 Hk Hj).
      assert (Ea : add64 (d i0 k) (d k j0) = Ok (d i0 k + d k j0)%Z).
      { unfold add64. destruct (Z.leb_spec (-9223372036854775808) (d i0 k + d k j0)); [|lia].
        destruct (Z.leb_spec (d i0 k + d k j0) 9223372036854775807); [auto|lia]. }
      rewrite Ea. cbn [bind].
      destruct (Z.ltb_spec (d i0 k + d k j0) (d i0 j0)) as [C3|C3].
      2:{ exists (dist, next). split; auto. apply Hsame. unfold cond.
          apply Z.ltb_ge in C3. rewrite C3, andb_false_r. auto. }
      destruct (mset_rep _ _ _ i0 j0 (d i0 k + d k j0)%Z Rd Hi Hj) as (dist' & -> & Rd').
      cbn [bind]. rewrite (mget_rep _ _ _ _ _ Rn Hi Hk), Nik. cbn [bind].
      destruct (mset_rep _ _ _ i0 j0 (nx i0 k) Rn Hi Hj) as (next' & -> & Rn').
      cbn [bind]. exists (dist', next'). split; auto. simpl.
      assert (C : cond d k i0 j0 = true) by (apply cond_intro; auto).
      split; [eapply rep_ext; [exact Rd'|]|eapply rep_ext; [exact Rn'|]];
        intros a b Ha Hb; unfold mix, pd, pn;
        destruct (Nat.ltb_spec a i0), (Nat.eqb_spec a i0), (Nat.eqb_spec b j0), (Nat.ltb_spec b j0), (Nat.ltb_spec b (S j0));
        simpl; subst; try lia; rewrite ?C; auto.
    Qed.

    Lemma fw_row_ok i0 dist next :
      i0 < n ->
      rep n dist (mix i0 0 (pd d k) d) -> rep n next (mix i0 0 (pn d nx k) nx) ->
      exists dn, foldM (fw_body INF k i0) (seq 0 n) (dist, next) = Ok dn /\
        rep n (fst dn) (mix (S i0) 0 (pd d k) d) /\
        rep n (snd dn) (mix (S i0) 0 (pn d nx k) nx).
    Proof.
      intros Hi Rd Rn.
      destruct (foldM_seq (fw_body INF k i0)
        (fun j dn => rep n (fst dn) (mix i0 j (pd d k) d) /\ rep n (snd dn) (mix i0 j (pn d nx k) nx))
        n 0 (dist, next)) as (dn & E1 & R1 & R2).
      - intros j [a b] Hj [H1 H2]. simpl in *.
        destruct (fw_body_ok i0 j a b Hi ltac:(lia) H1 H2) as (dn & E1 & R1 & R2). eauto.
      - simpl; auto.
      - exists dn. split; auto. simpl in R1, R2.
        split; [eapply rep_ext; [exact R1|]|eapply rep_ext; [exact R2|]];
          intros a b Ha Hb; unfold mix;
          destruct (Nat.ltb_spec a i0), (Nat.eqb_spec a i0), (Nat.ltb_spec b n), (Nat.ltb_spec a (S i0)), (Nat.eqb_spec a (S i0)), (Nat.ltb_spec b 0);
          simpl; try lia; auto.
    Qed.

    Lemma fw_phase_ok dist next :
      rep n dist d -> rep n next nx ->
      exists dn, foldM (fun dn i => foldM (fw_body INF k i) (seq 0 n) dn) (seq 0 n) (dist, next) = Ok dn /\
        rep n (fst dn) (pd d k) /\ rep n (snd dn) (pn d nx k).
    Proof.
      intros Rd Rn.
      destruct (foldM_seq (fun dn i => foldM (fw_body INF k i) (seq 0 n) dn)
        (fun i dn => rep n (fst dn) (mix i 0 (pd d k) d) /\ rep n (snd dn) (mix i 0 (pn d nx k) nx))
        n 0 (dist, next)) as (dn & E1 & R1 & R2).
      - intros i [a b] Hi [H1 H2]. simpl in *.
        destruct (fw_row_ok i a b ltac:(lia) H1 H2) as (dn & E1 & R1 & R2). eauto.
      - simpl. split; [eapply rep_ext; [exact Rd|]|eapply rep_ext; [exact Rn|]];
          intros a b Ha Hb; unfold mix; simpl; rewrite andb_false_r; auto.
      - exists dn. split; auto. simpl in R1, R2.
        split; [eapply rep_ext; [exact R1|]|eapply rep_ext; [exact R2|]];
          intros a b Ha Hb; unfold mix; destruct (Nat.ltb_spec a n); simpl; try lia; auto.
    Qed.
  End Phase.

  Lemma floyd_warshall_ok d nx L dist next :
    INV 0 d nx L -> rep n dist d -> rep n next nx ->
    exists dist' next' d' nx' L', floyd_warshall INF n (dist, next) = Ok (dist', next') /\
      rep n dist' d' /\ rep n next' nx' /\ INV n d' nx' L'.
  Proof.
    intros HI Rd Rn. unfold floyd_warshall.
    destruct (foldM_seq (fun dn k => foldM (fun dn i => foldM (fw_body INF k i) (seq 0 n) dn) (seq 0 n) dn)
      (fun k dn => exists d nx L, rep n (fst dn) d /\ rep n (snd dn) nx /\ INV k d nx L)
      n 0 (dist, next)) as ([dist' next'] & E1 & d' & nx' & L1 & R1 & R2 & I1).
    - intros k [a b] Hk (d1 & nx1 & L1 & R1 & R2 & I1). simpl in *.
      destruct (fw_phase_ok k ltac:(lia) d1 nx1 L1 I1 a b R1 R2) as (dn & E1 & R3 & R4).
      exists dn. split; auto. do 3 eexists. split; [exact R3|]. split; [exact R4|].
      exact (phase_inv k ltac:(lia) d1 nx1 L1 I1).
    - simpl. eauto 6.
    - simpl in *. exists dist', next', d', nx', L1. auto.
  Qed.

  (** ** Reading the result *)

  Section Result.
    Variables d nx : nat -> nat -> Z.
    Variable L : nat -> nat -> nat.
    Hypothesis HI : INV n d nx L.

    Lemma dist_lower i j c : i < n -> j < n -> walk E i j c -> (c < INF)%Z -> (d i j <= c)%Z.
    Proof.
      intros Hi Hj Hw Hc. apply walk_wk in Hw. destruct Hw as [[-> ->]|Hw].
      - rewrite (inv_diag _ _ _ _ HI) by auto. lia.
      - eapply (inv_low _ _ _ _ HI); eauto.
    Qed.

    Lemma wk_walk K i j c : wk K i j c -> walk E i j c.
    Proof.
      induction 1.
      - rewrite <- (Z.add_0_r c). econstructor; eauto. constructor.
      - econstructor; eauto.
    Qed.

    Lemma dist_attained_gen : forall l i j, L i j = l -> i < n -> j < n -> (d i j < INF)%Z -> walk E i j (d i j).
    Proof.
      induction l as [|l IH]; intros i j HL Hi Hj Hd; (destruct (Nat.eq_dec i j) as [->|Hne];
        [rewrite (inv_diag _ _ _ _ HI) by auto; constructor|]);
        destruct (inv_next _ _ _ _ HI i j Hi Hj Hne Hd) as (m & c & Hn & Hm & He & Hdd & Hor & HLL);
        [lia|].
      rewrite Hdd. econstructor; eauto. apply IH; auto; [lia|].
      pose proof (E_cost _ _ _ He). lia.
    Qed.

    Lemma dist_attained i j : i < n -> j < n -> (d i j < INF)%Z -> walk E i j (d i j).
    Proof. intros; eapply dist_attained_gen; eauto. Qed.

    (** Following the next-hops. *)
    Lemma follow_gen next (Rn : rep n next nx) : forall l i j, L i j = l -> i < n -> j < n ->
      (d i j < INF)%Z ->
      exists p, (forall fuel, l <= fuel -> follow fuel next i j = Ok p) /\
        route E (i :: p) (d i j) /\ hd_error (rev (i :: p)) = Some j /\
        length p = l /\ (forall x, In x p -> x < n /\ L x j < l) /\ NoDup (i :: p).
    Proof.
      induction l as [|l IH]; intros i j HL Hi Hj Hd; destruct (Nat.eq_dec i j) as [->|Hne].
      - exists []. split; [|split; [|split; [|split; [|split]]]]; auto.
        + intros fuel _. destruct fuel; simpl; rewrite Nat.eqb_refl; auto.
        + rewrite (inv_diag _ _ _ _ HI) by auto. constructor.
        + intros x [].
        + constructor; auto. constructor.
      - destruct (inv_next _ _ _ _ HI i j Hi Hj Hne Hd) as (m & c & _ & _ & _ & _ & _ & HLL). lia.
      - rewrite (inv_L0 _ _ _ _ HI) in HL by auto. lia.
      - destruct (inv_next _ _ _ _ HI i j Hi Hj Hne Hd) as (m & c & Hn & Hm & He & Hdd & Hor & HLL).
        pose proof (E_cost _ _ _ He) as Hc.
        destruct (IH m j) as (p & F1 & F2 & F3 & F4 & F5 & F6); auto; try lia.
        exists (m :: p). split; [|split; [|split; [|split; [|split]]]].
        + intros fuel Hf. destruct fuel as [|fuel]; [lia|]. cbn [follow].
          destruct (Nat.eqb_spec i j); [contradiction|].
          rewrite (mget_rep _ _ _ _ _ Rn Hi Hj), Hn. cbn [bind].
          destruct (Z.ltb_spec (Z.of_nat m) 0); [lia|].
          rewrite Nat2Z.id, F1 by lia. reflexivity.
        + rewrite Hdd. constructor; auto.
        + simpl in *. destruct (rev p); simpl in *; auto.
        + simpl. lia.
        + intros x [<-|H]; [split; [auto|lia]|]. destruct (F5 x H). lia.
        + constructor; auto. intros [E1|E1]; [subst m; lia|]. destruct (F5 i E1). lia.
    Qed.

    Lemma follow_ok next i j : rep n next nx -> i < n -> j < n -> (d i j < INF)%Z ->
      exists p, follow n next i j = Ok p /\
        route E (i :: p) (d i j) /\ hd_error (rev (i :: p)) = Some j /\ NoDup (i :: p).
    Proof.
      intros Rn Hi Hj Hd.
      destruct (follow_gen next Rn (L i j) i j) as (p & F1 & F2 & F3 & F4 & F5 & F6); auto.
      exists p. split; [|auto]. apply F1.
      assert (length (i :: p) <= length (seq 0 n)).
      { apply NoDup_incl_length; auto. intros x [<-|Hx]; apply in_seq; [lia|].
        destruct (F5 x Hx). lia. }
      rewrite seq_length in H. simpl in H. lia.
    Qed.

    Lemma next_neg1_iff i j : i < n -> j < n -> i <> j ->
      (nx i j = (-1)%Z <-> d i j = INF).
    Proof.
      intros Hi Hj Hne. split.
      - intro H. pose proof (inv_rng _ _ _ _ HI i j Hi Hj).
        destruct (Z.eq_dec (d i j) INF); auto.
        destruct (inv_next _ _ _ _ HI i j Hi Hj Hne ltac:(lia)) as (m & c & Hn & _). lia.
      - apply (inv_none _ _ _ _ HI); auto.
    Qed.

    Lemma reconstruct_ok dist next : rep n dist d -> rep n next nx ->
      reconstruct_loop INF n next dist = Ok dist.
    Proof.
      intros Rd Rn. unfold reconstruct_loop.
      assert (Hbody : forall i j, i < n -> j < n -> reconstruct_body INF n next i dist j = Ok dist).
      { intros i j Hi Hj. unfold reconstruct_body.
        destruct (Nat.eqb_spec i j) as [|Hne]; auto.
        rewrite (mget_rep _ _ _ _ _ Rn Hi Hj). cbn [bind].
        destruct (Z.eqb_spec (nx i j) (-1)) as [Hz|Hz].
        - apply next_neg1_iff in Hz; auto.
          destruct (mset_rep _ _ _ i j INF Rd Hi Hj) as (m' & Em & Rm).
          rewrite Em. f_equal. eapply rep_fun; [exact Rm|].
          eapply rep_ext; [exact Rd|]. intros a b Ha Hb. cbv beta.
          destruct (Nat.eqb_spec a i), (Nat.eqb_spec b j); simpl; subst; auto.
        - destruct (follow_ok next i j Rn Hi Hj) as (p & -> & _); auto.
          destruct (Z.eq_dec (d i j) INF) as [Hz'|Hz'].
          + apply (next_neg1_iff i j Hi Hj Hne) in Hz'. contradiction.
          + pose proof (inv_rng _ _ _ _ HI i j Hi Hj). lia. }
      assert (Hrow : forall i, i < n -> foldM (reconstruct_body INF n next i) (seq 0 n) dist = Ok dist).
      { intros i Hi. destruct (foldM_seq (reconstruct_body INF n next i) (fun _ s => s = dist) n 0 dist)
          as (s' & -> & ->); auto.
        intros k s Hk ->. exists dist. split; auto. apply Hbody; auto; lia. }
      destruct (foldM_seq (fun dist0 i => foldM (reconstruct_body INF n next i) (seq 0 n) dist0)
        (fun _ s => s = dist) n 0 dist) as (s' & -> & ->); auto.
      intros k s Hk ->. exists dist. split; auto. apply Hrow. lia.
    Qed.
  End Result.
End FW.
