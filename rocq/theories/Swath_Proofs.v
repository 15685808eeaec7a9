(** Lemmas about swath ordering. *)
From Coq Require Import List Arith ZArith Lia Bool Permutation Sorted.
From Verif Require Import Outcome ListAux Swath_Model Swath_Spec.
Import ListNotations.

(** ** std::rotate and std::reverse, position by position *)

Definition rot_idx (f m e j : nat) : nat :=
  if j <? f then j
  else if j <? f + (e - m) then j + (m - f)
  else if j <? e then j - (e - m) else j.

Definition rev_idx (f e j : nat) : nat :=
  if j <? f then j else if j <? e then f + e - 1 - j else j.

Ltac bdestr :=
  repeat match goal with
  | H : context [?a <? ?b] |- _ => destruct (Nat.ltb_spec a b)
  | |- context [?a <? ?b] => destruct (Nat.ltb_spec a b)
  | H : context [?a <=? ?b] |- _ => destruct (Nat.leb_spec a b)
  | |- context [?a <=? ?b] => destruct (Nat.leb_spec a b)
  | H : context [?a =? ?b] |- _ => destruct (Nat.eqb_spec a b)
  | |- context [?a =? ?b] => destruct (Nat.eqb_spec a b)
  end.

Lemma std_rotate_ok {A} (l r : list A) f m e :
  std_rotate l f m e = Ok r -> f <= m <= e /\ e <= length l /\ picks (rot_idx f m e) l r.
Proof.
  unfold std_rotate. intro H.
  destruct (f <=? m) eqn:E1; simpl in H; try discriminate.
  destruct (m <=? e) eqn:E2; simpl in H; try discriminate.
  destruct (e <=? length l) eqn:E3; simpl in H; try discriminate.
  apply Nat.leb_le in E1, E2, E3. injection H as <-.
  repeat split; auto.
  - rewrite !app_length, !firstn_length, !skipn_length. lia.
  - unfold rot_idx. bdestr; lia.
  - unfold rot_idx. bdestr.
    + rewrite nth_error_app1 by (rewrite firstn_length; lia). now apply nth_error_firstn_lt.
    + rewrite nth_error_app2 by (rewrite firstn_length; lia).
      rewrite firstn_length.
      rewrite nth_error_app1 by (rewrite firstn_length, skipn_length; lia).
      rewrite nth_error_firstn_lt by lia. rewrite nth_error_skipn'. f_equal; lia.
    + rewrite nth_error_app2 by (rewrite firstn_length; lia).
      rewrite firstn_length.
      rewrite nth_error_app2 by (rewrite firstn_length, skipn_length; lia).
      rewrite firstn_length, skipn_length.
      rewrite nth_error_app1 by (rewrite firstn_length, skipn_length; lia).
      rewrite nth_error_firstn_lt by lia. rewrite nth_error_skipn'. f_equal; lia.
    + rewrite nth_error_app2 by (rewrite firstn_length; lia).
      rewrite firstn_length.
      rewrite nth_error_app2 by (rewrite firstn_length, skipn_length; lia).
      rewrite firstn_length, skipn_length.
      rewrite nth_error_app2 by (rewrite firstn_length, skipn_length; lia).
      rewrite firstn_length, skipn_length.
      rewrite nth_error_skipn'. f_equal; lia.
Qed.

Lemma std_rotate_defined {A} (l : list A) f m e :
  f <= m -> m <= e -> e <= length l -> exists r, std_rotate l f m e = Ok r.
Proof.
  intros. unfold std_rotate.
  rewrite (proj2 (Nat.leb_le f m)), (proj2 (Nat.leb_le m e)), (proj2 (Nat.leb_le e _)) by lia.
  simpl. eauto.
Qed.

Lemma std_rotate_perm {A} (l r : list A) f m e :
  std_rotate l f m e = Ok r -> Permutation l r.
Proof.
  unfold std_rotate. intro H.
  destruct (f <=? m) eqn:E1; simpl in H; try discriminate.
  destruct (m <=? e) eqn:E2; simpl in H; try discriminate.
  destruct (e <=? length l) eqn:E3; simpl in H; try discriminate.
  apply Nat.leb_le in E1, E2, E3. injection H as <-.
  rewrite (firstn_skipn_split3 l f m e E1 E2 E3) at 1.
  apply Permutation_app_head. rewrite !app_assoc. apply Permutation_app_tail.
  apply Permutation_app_comm.
Qed.

Lemma std_reverse_ok {A} (l r : list A) f e :
  std_reverse l f e = Ok r -> f <= e /\ e <= length l /\ picks (rev_idx f e) l r.
Proof.
  unfold std_reverse. intro H.
  destruct (f <=? e) eqn:E1; simpl in H; try discriminate.
  destruct (e <=? length l) eqn:E3; simpl in H; try discriminate.
  apply Nat.leb_le in E1, E3. injection H as <-.
  repeat split; auto.
  - rewrite !app_length, rev_length, !firstn_length, !skipn_length. lia.
  - unfold rev_idx. bdestr; lia.
  - unfold rev_idx. bdestr.
    + rewrite nth_error_app1 by (rewrite firstn_length; lia). now apply nth_error_firstn_lt.
    + rewrite nth_error_app2 by (rewrite firstn_length; lia).
      rewrite firstn_length.
      rewrite nth_error_app1 by (rewrite rev_length, firstn_length, skipn_length; lia).
      rewrite nth_error_rev_lt by (rewrite firstn_length, skipn_length; lia).
      rewrite firstn_length, skipn_length.
      rewrite nth_error_firstn_lt by lia. rewrite nth_error_skipn'. f_equal; lia.
    + rewrite nth_error_app2 by (rewrite firstn_length; lia).
      rewrite firstn_length.
      rewrite nth_error_app2 by (rewrite rev_length, firstn_length, skipn_length; lia).
      rewrite rev_length, firstn_length, skipn_length.
      rewrite nth_error_skipn'. f_equal; lia.
Qed.

Lemma std_reverse_defined {A} (l : list A) f e :
  f <= e -> e <= length l -> exists r, std_reverse l f e = Ok r.
Proof.
  intros. unfold std_reverse.
  rewrite (proj2 (Nat.leb_le f e)), (proj2 (Nat.leb_le e _)) by lia. simpl. eauto.
Qed.

Lemma std_reverse_perm {A} (l r : list A) f e :
  std_reverse l f e = Ok r -> Permutation l r.
Proof.
  unfold std_reverse. intro H.
  destruct (f <=? e) eqn:E1; simpl in H; try discriminate.
  destruct (e <=? length l) eqn:E3; simpl in H; try discriminate.
  apply Nat.leb_le in E1, E3. injection H as <-.
  assert (E := firstn_skipn_split3 l f e e E1 (le_n e) E3).
  rewrite Nat.sub_diag in E. rewrite E at 1. cbn [firstn app].
  apply Permutation_app_head. apply Permutation_app_tail. apply Permutation_rev.
Qed.

(** ** Snake *)

(** Positions after [k] rounds of the rotation loop. *)
Definition snake_mid (n k j : nat) : nat :=
  if j <=? k then 2 * j else if j <? n - k then j + k else 2 * (j - (n - k)) + 1.

Section SnakeProof.
  Context {P W : Type}.
  Notation swath := (swath P W).

  Lemma snake_loop_spec (l : list swath) : forall k,
    k <= (length l - 1) / 2 ->
    exists r,
      foldM (fun acc i => std_rotate acc i (i + 1) (length acc)) (seq 1 k) l = Ok r
      /\ picks (snake_mid (length l) k) l r.
  Proof.
    induction k; intros Hk.
    - exists l. simpl. split; auto. split; auto. intros i Hi. unfold snake_mid. bdestr; try lia.
      + split; [lia|f_equal; lia].
      + split; [lia|f_equal; lia].
    - destruct IHk as (r & Hr & Hp); [lia|].
      assert (Hn : 2 * S k <= length l - 1).
      { pose proof (Nat.div_mod (length l - 1) 2 ltac:(lia)). lia. }
      rewrite seq_S, foldM_app, Hr. cbn [bind foldM].
      destruct Hp as [Hl Hp].
      destruct (std_rotate_defined r (1 + k) (1 + k + 1) (length r)) as [r' Hr']; [lia..|].
      rewrite Hr'. cbn [bind]. exists r'. split; auto.
      apply std_rotate_ok in Hr'. destruct Hr' as (_ & _ & Hp').
      rewrite Hl in Hp'.
      eapply picks_ext; [|eapply picks_trans; [split; eassumption|exact Hp']].
      intros i Hi. unfold snake_mid, rot_idx. bdestr; lia.
  Qed.

  Lemma snake_spec (l : list swath) :
    length l <> 1 -> length l <> 0 ->
    exists r, snake_sortSwaths l = Ok r /\ picks (snake_pos (length l)) l r.
  Proof.
    intros H1 H0. unfold snake_sortSwaths.
    set (n := length l).
    pose proof (Nat.div_mod (n - 1) 2 ltac:(lia)) as Hd.
    pose proof (Nat.mod_upper_bound (n - 1) 2 ltac:(lia)) as Hm.
    replace ((n - 1) / 2 + 1 - 1) with ((n - 1) / 2) by lia.
    destruct (snake_loop_spec l ((n - 1) / 2)) as (r & Hr & Hp); [subst n; lia|].
    rewrite Hr. cbn [bind]. destruct Hp as [Hl Hp]. fold n in Hl, Hp.
    set (k := (n - 1) / 2) in *.
    destruct (std_reverse_defined r (k + 1 + 1) (length r)) as [r2 Hr2]; [lia|lia|].
    rewrite Hr2. cbn [bind].
    apply std_reverse_ok in Hr2. destruct Hr2 as (_ & _ & Hp2). rewrite Hl in Hp2.
    assert (Hp12 : picks (fun i => snake_mid n k (rev_idx (k + 1 + 1) n i)) l r2).
    { eapply picks_trans; [split; eassumption|exact Hp2]. }
    assert (Hpar : n mod 2 = 1 /\ n = 2 * k + 1 \/ n mod 2 = 0 /\ n = 2 * k + 2).
    { pose proof (Nat.div_mod n 2 ltac:(lia)). pose proof (Nat.mod_upper_bound n 2 ltac:(lia)). lia. }
    destruct Hpar as [[Hpar Hn]|[Hpar Hn]]; rewrite Hpar.
    - rewrite Nat.eqb_refl.
      pose proof Hp12 as [Hl2 _].
      destruct (std_rotate_defined r2 (k + 1) (k + 1 + 1) (length r2)) as [r3 Hr3];
        [lia|fold n in Hl2; lia|lia|].
      rewrite Hr3. exists r3. split; auto.
      apply std_rotate_ok in Hr3. destruct Hr3 as (_ & _ & Hp3). rewrite Hl2 in Hp3. fold n in Hp3.
      eapply picks_ext; [|eapply picks_trans; [exact Hp12|exact Hp3]].
      fold n. intros i Hi. unfold snake_mid, rev_idx, rot_idx, snake_pos. bdestr; lia.
    - change (0 =? 1) with false. cbn iota. exists r2. split; auto.
      eapply picks_ext; [|exact Hp12].
      fold n. intros i Hi. unfold snake_mid, rev_idx, snake_pos. bdestr; lia.
  Qed.

  Lemma snake_one (s : swath) : snake_sortSwaths [s] = UB.
  Proof. reflexivity. Qed.

  Lemma snake_perm (l r : list swath) : snake_sortSwaths l = Ok r -> Permutation l r.
  Proof.
    unfold snake_sortSwaths. intro H.
    destruct (foldM _ _ l) eqn:E1; simpl in H; try discriminate.
    assert (P1 : Permutation l a).
    { revert E1. apply foldM_ind with (I := fun x => Permutation l x); auto.
      intros. eapply perm_trans; eauto. eapply std_rotate_perm; eauto. }
    destruct (std_reverse _ _ _) eqn:E2; simpl in H; try discriminate.
    apply std_reverse_perm in E2.
    destruct (_ =? _).
    - apply std_rotate_perm in H. eauto using perm_trans.
    - injection H as <-. eauto using perm_trans.
  Qed.
End SnakeProof.

(** ** Spiral *)

Section SpiralProof.
  Context {P W : Type}.
  Notation swath := (swath P W).

  (** Where position [t] of a block of size [b] comes from; [d] is 1 if the
      block starts at an even offset and 0 otherwise. *)
  Definition spiral_blk (d b t : nat) : nat :=
    if Nat.even (t + 1 + d) then t / 2 else b - 1 - t / 2.

  (** The same in the middle of the loop, before the round with j = 2q+d. *)
  Definition spiral_mid (d b q t : nat) : nat :=
    if t <? 2 * q + d then spiral_blk d b t else t - q.

  Definition block_idx (o b : nat) (p : nat -> nat) (i : nat) : nat :=
    if i <? o then i else if i <? o + b then o + p (i - o) else i.

  Lemma div2_eq t : exists h, t / 2 = h /\ (t = 2 * h /\ Nat.even t = true \/ t = 2 * h + 1 /\ Nat.even t = false).
  Proof.
    exists (t / 2). split; auto.
    pose proof (Nat.div_mod t 2 ltac:(lia)). pose proof (Nat.mod_upper_bound t 2 ltac:(lia)).
    destruct (t mod 2) as [|[|]] eqn:E; try lia.
    - left. split; [lia|]. rewrite H, Nat.add_0_r. rewrite Nat.even_mul. reflexivity.
    - right. split; [lia|]. rewrite H. rewrite Nat.even_add, Nat.even_mul. reflexivity.
  Qed.

  Lemma spiral_loop_spec (o b d : nat) (l0 : list swath) :
    d <= 1 -> o + b <= length l0 -> forall fuel q (l : list swath),
    b - (2 * q + d) <= fuel ->
    picks (block_idx o b (spiral_mid d b q)) l0 l ->
    exists r, spiral_loop fuel l o b (2 * q + d) = Ok r /\
              picks (block_idx o b (spiral_blk d b)) l0 r.
  Proof.
    intros Hd Hb. induction fuel; intros q l Hf Hp.
    - cbn [spiral_loop]. destruct (Nat.ltb_spec (2 * q + d) b); [lia|].
      exists l. split; auto. eapply picks_ext; [|exact Hp].
      intros i Hi. unfold block_idx, spiral_mid. bdestr; lia.
    - cbn [spiral_loop]. destruct (Nat.ltb_spec (2 * q + d) b) as [Hlt|Hge].
      + pose proof Hp as [Hl _].
        destruct (std_rotate_defined l (o + (2 * q + d)) (o + b - 1) (o + b)) as [r Hr]; [lia..|].
        rewrite Hr. cbn [bind].
        replace (2 * q + d + 2) with (2 * (S q) + d) by lia.
        apply IHfuel; [lia|].
        apply std_rotate_ok in Hr. destruct Hr as (_ & _ & Hr).
        eapply picks_ext; [|eapply picks_trans; [exact Hp|exact Hr]].
        intros i Hi. unfold block_idx, rot_idx.
        destruct (Nat.ltb_spec i o); [bdestr; lia|].
        destruct (Nat.ltb_spec i (o + b)); [|bdestr; lia].
        remember (i - o) as t eqn:Et. assert (i = o + t) by lia. subst i. clear Et.
        destruct (Nat.ltb_spec (o + t) (o + (2 * q + d))).
        { bdestr; try lia. replace (o + t - o) with t by lia.
          unfold spiral_mid. bdestr; try lia. }
        destruct (Nat.ltb_spec (o + t) (o + (2 * q + d) + (o + b - (o + b - 1)))).
        { assert (t = 2 * q + d) by lia. subst t. bdestr; try lia.
          unfold spiral_mid. bdestr; try lia. f_equal.
          unfold spiral_blk.
          destruct (div2_eq (2 * q + d)) as (h & -> & Hh).
          replace (2 * q + d + 1 + d) with (2 * (q + d) + 1) by lia.
          rewrite Nat.even_add, Nat.even_mul. cbn. destruct Hh; lia. }
        destruct (Nat.ltb_spec (o + t) (o + b)); [|lia].
        bdestr; try lia.
        replace (o + t - (o + b - (o + b - 1)) - o) with (t - 1) by lia.
        f_equal. unfold spiral_mid. bdestr; try lia.
        assert (t = 2 * q + d + 1) by lia. subst t. unfold spiral_blk.
        destruct (div2_eq (2 * q + d + 1)) as (h & -> & Hh).
        replace (2 * q + d + 1 + 1 + d) with (2 * (q + d + 1)) by lia.
        rewrite Nat.even_mul. cbn. destruct Hh; lia.
      + exists l. split; auto. eapply picks_ext; [|exact Hp].
        intros i Hi. unfold block_idx, spiral_mid. bdestr; lia.
  Qed.

  Lemma spiral_block (l : list swath) o b :
    o + b <= length l ->
    exists r, spiral l o b = Ok r /\
              picks (block_idx o b (spiral_blk ((o + 1) mod 2) b)) l r.
  Proof.
    intros Hb. unfold spiral.
    pose proof (Nat.mod_upper_bound (o + 1) 2 ltac:(lia)) as Hd.
    apply (spiral_loop_spec o b ((o + 1) mod 2) l ltac:(lia) Hb b 0 l); [lia|].
    eapply picks_ext; [|apply picks_refl].
    intros i Hi. unfold block_idx, spiral_mid. cbn [Nat.mul Nat.add].
    destruct (Nat.ltb_spec i o); [lia|]. destruct (Nat.ltb_spec i (o + b)); [|lia].
    destruct (Nat.ltb_spec (i - o) ((o + 1) mod 2)); [|lia].
    assert ((o + 1) mod 2 = 1) by lia. replace (i - o) with 0 by lia.
    rewrite H2. unfold spiral_blk. cbn. lia.
  Qed.

  Lemma spiral_blk_pos s n i :
    0 < s -> i < n ->
    let o := (i / s) * s in
    o + spiral_blk ((o + 1) mod 2) (Nat.min s (n - o)) (i - o) = spiral_pos s n i.
  Proof.
    intros Hs Hi o. unfold spiral_pos. fold o.
    pose proof (Nat.div_mod i s ltac:(lia)) as Hdm.
    assert (Ho : i - o = i mod s) by (subst o; lia).
    rewrite Ho. f_equal. unfold spiral_blk.
    replace (Nat.even (i mod s + 1 + (o + 1) mod 2)) with (Nat.even (o + i mod s)); auto.
    destruct (div2_eq (o + 1)) as (h & _ & Hh).
    assert (Hm : (o + 1) mod 2 = 1 /\ Nat.even o = true \/ (o + 1) mod 2 = 0 /\ Nat.even o = false).
    { pose proof (Nat.div_mod (o + 1) 2 ltac:(lia)).
      pose proof (Nat.mod_upper_bound (o + 1) 2 ltac:(lia)).
      rewrite Nat.even_add in Hh. change (Nat.even 1) with false in Hh.
      destruct Hh as [[Ha Hb]|[Ha Hb]]; destruct (Nat.even o) eqn:E; try discriminate; lia. }
    destruct Hm as [[-> E]|[-> E]]; rewrite !Nat.even_add, E;
      destruct (Nat.even (i mod s)); reflexivity.
  Qed.

  Lemma spiral_pos_lt s n i : 0 < s -> i < n -> spiral_pos s n i < n.
  Proof.
    intros Hs Hi. unfold spiral_pos.
    pose proof (Nat.div_mod i s ltac:(lia)) as Hdm.
    pose proof (Nat.mod_upper_bound i s ltac:(lia)).
    destruct (div2_eq (i mod s)) as (h & -> & Hh).
    set (o := i / s * s) in *. assert (i = o + i mod s) by (subst o; lia).
    assert (Hh2 : h <= i mod s) by (destruct Hh as [[? _]|[? _]]; lia).
    clear Hh Hdm. generalize dependent (i mod s). intros t Ht Hit Hh2.
    clearbody o. destruct (Nat.even (o + t)); lia.
  Qed.

  Lemma div_block i s k : 0 < s -> k * s <= i < k * s + s -> i / s = k.
  Proof.
    intros Hs H. symmetry. apply Nat.div_unique with (r := i - k * s); lia.
  Qed.

  Lemma spiral_blocks (s : nat) (l : list swath) : 0 < s -> forall k,
    k * s <= length l ->
    exists r,
      foldM (fun acc i => spiral acc (i * s) s) (seq 0 k) l = Ok r /\
      picks (fun i => if i <? k * s then spiral_pos s (length l) i else i) l r.
  Proof.
    intros Hs. induction k; intros Hk.
    - exists l. split; auto. eapply picks_ext; [|apply picks_refl]. intros; simpl; auto.
    - destruct IHk as (r & Hr & Hp); [simpl in Hk; lia|].
      rewrite seq_S, foldM_app, Hr. cbn [bind foldM]. simpl plus.
      pose proof Hp as [Hl _].
      destruct (spiral_block r (k * s) s) as (r' & Hr' & Hp'); [simpl in Hk; lia|].
      rewrite Hr'. cbn [bind]. exists r'. split; auto.
      eapply picks_ext; [|eapply picks_trans; [exact Hp|exact Hp']].
      intros i Hi. cbn beta. unfold block_idx.
      assert (Hsk : S k * s = k * s + s) by lia. rewrite Hsk in *.
      destruct (Nat.ltb_spec i (k * s)).
      { bdestr; lia. }
      destruct (Nat.ltb_spec i (k * s + s)).
      + assert (Hdiv : i / s = k) by (apply div_block; lia).
        pose proof (spiral_blk_pos s (length l) i Hs Hi) as E. cbv zeta in E. rewrite Hdiv in E.
        replace (Nat.min s (length l - k * s)) with s in E by lia.
        rewrite E.
        destruct (Nat.ltb_spec (spiral_pos s (length l) i) (k * s)); auto.
        unfold spiral_pos in *. rewrite Hdiv in *. lia.
      + bdestr; lia.
  Qed.

  Lemma spiral_spec (s : nat) (l : list swath) :
    0 < s ->
    exists r, spiral_sortSwaths s l = Ok r /\ picks (spiral_pos s (length l)) l r.
  Proof.
    intros Hs. unfold spiral_sortSwaths.
    destruct (Nat.eqb_spec s 0) as [|Hs0]; [lia|].
    set (n := length l). pose proof (Nat.div_mod n s ltac:(lia)) as Hd.
    pose proof (Nat.mod_upper_bound n s ltac:(lia)) as Hm.
    set (c := n / s) in *.
    assert (Hsc : s * c = c * s) by lia. rewrite Hsc in Hd.
    destruct (spiral_blocks s l Hs c) as (r & Hr & Hp); [fold n; lia|].
    rewrite Hr. cbn [bind]. fold n in Hp.
    assert (Htail : forall i, c * s <= i -> i < n -> i / s = c).
    { intros. apply div_block; lia. }
    destruct (Nat.ltb_spec 1 (n - c * s)).
    - pose proof Hp as [Hl _].
      destruct (spiral_block r (c * s) (n - c * s)) as (r' & Hr' & Hp'); [fold n in Hl; lia|].
      rewrite Hr'. exists r'. split; auto.
      eapply picks_ext; [|eapply picks_trans; [exact Hp|exact Hp']].
      fold n. intros i Hi. cbn beta. unfold block_idx.
      destruct (Nat.ltb_spec i (c * s)).
      { bdestr; lia. }
      destruct (Nat.ltb_spec i (c * s + (n - c * s))); [|lia].
      pose proof (spiral_blk_pos s n i Hs Hi) as E. cbv zeta in E. rewrite (Htail i) in E by lia.
      replace (Nat.min s (n - c * s)) with (n - c * s) in E by lia.
      rewrite E.
      destruct (Nat.ltb_spec (spiral_pos s n i) (c * s)); auto.
      unfold spiral_pos in *. rewrite (Htail i) in * by lia. lia.
    - exists r. split; auto. eapply picks_ext; [|exact Hp].
      fold n. intros i Hi. cbn beta. destruct (Nat.ltb_spec i (c * s)); auto.
      assert (i = c * s) by lia.
      unfold spiral_pos. rewrite (Htail i) by lia.
      assert (Hi0 : i mod s = 0).
      { subst i. apply Nat.mod_mul. lia. }
      rewrite Hi0. change (0 / 2) with 0.
      destruct (Nat.even _); lia.
  Qed.

  Lemma spiral_zero (l : list swath) : spiral_sortSwaths 0 l = UB.
  Proof. reflexivity. Qed.

  Lemma spiral_loop_perm : forall fuel (l r : list swath) o b j,
    spiral_loop fuel l o b j = Ok r -> Permutation l r.
  Proof.
    induction fuel; intros l r o b j H; simpl in H; destruct (j <? b) eqn:E; try discriminate.
    - injection H as <-; auto.
    - destruct (std_rotate _ _ _ _) eqn:E2; simpl in H; try discriminate.
      apply std_rotate_perm in E2. eapply perm_trans; eauto.
    - injection H as <-; auto.
  Qed.

  Lemma spiral_perm s (l r : list swath) :
    spiral_sortSwaths s l = Ok r -> Permutation l r.
  Proof.
    unfold spiral_sortSwaths. destruct (s =? 0); try discriminate. intro H.
    destruct (foldM _ _ l) eqn:E1; simpl in H; try discriminate.
    assert (P1 : Permutation l a).
    { revert E1. apply foldM_ind with (I := fun x => Permutation l x); auto.
      intros. eapply perm_trans; eauto. unfold spiral in *. eapply spiral_loop_perm; eauto. }
    destruct (_ <? _).
    - apply spiral_loop_perm in H. eauto using perm_trans.
    - injection H as <-. auto.
  Qed.
End SpiralProof.
