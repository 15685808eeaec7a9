(** Lemmas about start variants, geometric direction, cloning, comparison,
    append and SwathsByCells. *)
From Coq Require Import List Arith ZArith Lia Bool Permutation Sorted.
From Verif Require Import Outcome ListAux Swath_Model Swath_Spec Swath_Proofs Swath_Proofs2.
Import ListNotations.

(** Insertion sort by a strict order given as a boolean function: shows that the
    hypothesis on std::sort can be met, and is the instance used in examples. *)
Section ISort.
  Context {A : Type} (key : A -> Z).
  Fixpoint insert_by (x : A) (l : list A) : list A :=
    match l with
    | [] => [x]
    | y :: l => if (key x <=? key y)%Z then x :: y :: l else y :: insert_by x l
    end.
  Definition isort_by (l : list A) : list A := fold_right insert_by [] l.

  Lemma insert_by_perm x l : Permutation (x :: l) (insert_by x l).
  Proof.
    induction l; simpl; auto. destruct (_ <=? _)%Z; auto.
    eapply perm_trans; [apply perm_swap|]. constructor; auto.
  Qed.
  Lemma insert_by_sorted x l :
    StronglySorted (fun a b => (key b <? key a)%Z = false) l ->
    StronglySorted (fun a b => (key b <? key a)%Z = false) (insert_by x l).
  Proof.
    induction 1; simpl; [repeat constructor|].
    destruct (Z.leb_spec (key x) (key a)).
    - constructor; [constructor; auto|]. constructor; [apply Z.ltb_ge; lia|].
      eapply Forall_impl; [|eassumption]. simpl. intros b Hb.
      apply Z.ltb_ge in Hb. apply Z.ltb_ge. lia.
    - constructor; auto. eapply Permutation_Forall; [apply insert_by_perm|].
      constructor; auto. apply Z.ltb_ge. lia.
  Qed.
  Lemma isort_by_ok l : std_sorted (fun a b => (key a <? key b)%Z) l (isort_by l).
  Proof.
    split.
    - induction l; simpl; auto. eapply perm_trans; [|apply insert_by_perm]. auto.
    - induction l; simpl; [constructor|]. apply insert_by_sorted; auto.
  Qed.
End ISort.

Section Gen3.
  Context {P W : Type}.
  Variable w_nonpos : W -> bool.
  Variable w_zero : W.
  Variable p_default : P.
  Variable p_lt : P -> P -> bool.
  Variable wkt : P -> P.
  Variable sort_fn : list (swath P W) -> list (swath P W).
  Notation swath := (swath P W).
  Notation gen := (genSortedSwaths w_nonpos w_zero p_default p_lt wkt sort_fn).

  Hypothesis sort_ok : forall l, std_sorted swath_lt l (sort_fn l).

  (** ** Variants *)

  Lemma testbit_mod4 v i : (i < 2)%N -> N.testbit (v mod 4) i = N.testbit v i.
  Proof. intro H. change 4%N with (2 ^ 2)%N. apply N.mod_pow2_bits_low. auto. Qed.

  Lemma gen_variant_mod4 k l v : gen k l (v mod 4)%N = gen k l v.
  Proof.
    unfold genSortedSwaths, changeStartPoint.
    rewrite !testbit_mod4 by reflexivity. reflexivity.
  Qed.

  Lemma reverse_opposite (s p : swath) :
    swath_reverse (swath_targetOppositeDirAs s p)
    = swath_targetOppositeDirAs s (swath_reverse p).
  Proof.
    unfold swath_targetOppositeDirAs, swath_hasSameDir. simpl.
    destruct (sw_dir p), (sw_dir s); simpl; rewrite ?swath_reverse_inv; auto.
  Qed.

  Lemma reverseDirOdd_from_rev : forall (l : list swath) p,
    reverseDirOdd_from (swath_reverse p) l = map swath_reverse (reverseDirOdd_from p l).
  Proof.
    induction l; intros p; simpl; auto.
    rewrite <- reverse_opposite. f_equal. apply IHl.
  Qed.

  (** The result depends on the directions of the sorted swaths only through
      the first one. *)
  Lemma opposite_upto (s s' p : swath) : upto_rev s s' ->
    swath_targetOppositeDirAs s p = swath_targetOppositeDirAs s' p.
  Proof.
    intros [->| ->]; auto.
    unfold swath_targetOppositeDirAs, swath_hasSameDir. simpl.
    destruct (sw_dir p), (sw_dir s); simpl; rewrite ?swath_reverse_inv; auto.
  Qed.

  Lemma reverseDirOdd_from_ext : forall (l l' : list swath) p,
    Forall2 upto_rev l l' -> reverseDirOdd_from p l = reverseDirOdd_from p l'.
  Proof.
    intros l l' p H. revert p. induction H; intros p; simpl; auto.
    rewrite (opposite_upto _ _ p H). f_equal. apply IHForall2.
  Qed.

  Lemma reverseDirOdd_ext (x : swath) l l' :
    Forall2 upto_rev l l' ->
    swaths_reverseDirOddSwaths (x :: l) = swaths_reverseDirOddSwaths (x :: l').
  Proof. intros H. simpl. f_equal. apply reverseDirOdd_from_ext; auto. Qed.

  (** Replacing the head of the list given to a strategy by its reverse. *)
  Lemma Forall2_upto_refl (m : list swath) : Forall2 upto_rev m m.
  Proof. induction m; constructor; auto. left; auto. Qed.

  Lemma picks_upto p (l l' r r' : list swath) :
    Forall2 upto_rev l l' -> picks p l r -> picks p l' r' -> Forall2 upto_rev r r'.
  Proof.
    intros HF [L H] [L' H']. pose proof (Forall2_length HF) as E.
    apply Forall2_nth_error in HF. destruct HF as [_ HF].
    apply Forall2_nth_error. split; [lia|]. intros i a b Ha Hb.
    assert (Hi : i < length l) by (rewrite <- L; apply nth_error_Some; congruence).
    destruct (H i Hi) as [_ Q]. destruct (H' i) as [_ Q']; [lia|].
    eapply HF; [rewrite <- Q; eassumption|rewrite <- Q'; eassumption].
  Qed.

  Lemma order_pos_head k n : n <> 0 -> order_usable k n ->
    (match k with Custom _ => False | _ => True end) -> order_pos k n 0 = 0.
  Proof.
    intros Hn Hu Hk. destruct k as [| |s|o]; simpl in *; auto; try contradiction.
    - unfold snake_pos. simpl. destruct n; [lia|reflexivity].
    - unfold spiral_pos. rewrite Nat.div_0_l, Nat.mod_0_l by auto. reflexivity.
  Qed.

  Lemma nth_error_0 {A} (l : list A) : nth_error l 0 = hd_error l.
  Proof. destruct l; auto. Qed.

  Lemma strategy_head_reversed k (x : swath) (l r : list swath) :
    sortSwaths w_zero k (x :: l) = Ok r ->
    order_pos k (S (length l)) 0 = 0 ->
    exists r', r = x :: r' /\
    exists r'', sortSwaths w_zero k (swath_reverse x :: l) = Ok (swath_reverse x :: r'') /\
      Forall2 upto_rev r' r''.
  Proof.
    intros H H0.
    assert (Hne : x :: l <> []) by discriminate.
    assert (Hne2 : swath_reverse x :: l <> []) by discriminate.
    pose proof (sortSwaths_usable w_zero k _ _ Hne H) as Hu.
    destruct (sortSwaths_picks w_zero k _ Hne Hu) as (r1 & Hr1 & Hp1).
    rewrite H in Hr1. injection Hr1 as <-.
    destruct (sortSwaths_picks w_zero k (swath_reverse x :: l) Hne2 Hu) as (r2 & Hr2 & Hp2).
    assert (HF : Forall2 upto_rev r r2).
    { eapply picks_upto; [|exact Hp1|exact Hp2]. constructor; [right; auto|apply Forall2_upto_refl]. }
    destruct Hp1 as [L1 P1]. destruct Hp2 as [L2 P2].
    destruct (P1 0) as [_ E1]; [simpl; lia|]. destruct (P2 0) as [_ E2]; [simpl; lia|].
    change (length (x :: l)) with (S (length l)) in E1.
    change (length (swath_reverse x :: l)) with (S (length l)) in E2.
    rewrite H0 in E1, E2.
    destruct r as [|y r']; [discriminate|]. destruct r2 as [|y2 r'']; [discriminate|].
    simpl in E1, E2. assert (y = x) by congruence. assert (y2 = swath_reverse x) by congruence. subst.
    exists r'. split; auto. exists r''. split; auto. inversion HF; auto.
  Qed.

  Lemma gen_bit1 k l v r :
    gen k l v = Ok r -> N.testbit v 1 = false ->
    order_pos k (length l) 0 = 0 ->
    gen k l (v + 2)%N = Ok (map swath_reverse r).
  Proof.
    intros H Hv H0.
    assert (Hb0 : N.testbit (v + 2) 0 = N.testbit v 0).
    { rewrite !N.bit0_odd, N.odd_add. simpl. apply xorb_false_r. }
    assert (Hb1 : N.testbit (v + 2) 1 = true).
    { rewrite N.testbit_odd, N.shiftr_div_pow2 in *. change (2 ^ 1)%N with 2%N in *.
      replace ((v + 2) / 2)%N with (v / 2 + 1)%N.
      2:{ change (v + 2)%N with (v + 1 * 2)%N. rewrite N.div_add; lia. }
      rewrite N.odd_add, Hv. reflexivity. }
    revert H. unfold genSortedSwaths.
    destruct (swaths_clone w_nonpos w_zero wkt l) as [c| | |] eqn:Ec; try discriminate.
    cbn [bind].
    assert (Hlen : length c = length l).
    { apply mapM_ok in Ec. apply Forall2_length in Ec. auto. }
    destruct c as [|c0 c'].
    { intro H. injection H as <-. reflexivity. }
    unfold changeStartPoint, swaths_reverse. rewrite Hb0, Hb1, Hv.
    set (c := c0 :: c') in *.
    destruct (sort_ok (map (swath_orient p_default p_lt) c)) as [HP _].
    apply Permutation_length in HP. rewrite map_length in HP.
    fold (swaths_sort p_default p_lt sort_fn c) in HP.
    set (q := swaths_sort p_default p_lt sort_fn c) in *.
    set (m := if N.testbit v 0 then rev q else q).
    assert (Hm : length m = length l).
    { unfold m. destruct (N.testbit v 0); rewrite ?rev_length; lia. }
    destruct m as [|x m'].
    { exfalso. assert (length c = S (length c')) by reflexivity. simpl in Hm. lia. }
    intro H.
    assert (E : vec_index (x :: m') 0 = Ok x) by reflexivity.
    rewrite E. cbn [bind]. clear E.
    assert (E : vec_set (x :: m') 0 (swath_reverse x) = Ok (swath_reverse x :: m')) by reflexivity.
    rewrite E. cbn [bind] in *. clear E.
    destruct (sortSwaths w_zero k (x :: m')) as [r0| | |] eqn:Er; try discriminate.
    cbn [bind] in H.
    simpl in Hm. rewrite <- Hm in H0.
    destruct (strategy_head_reversed k x m' r0 Er H0) as (r' & -> & r'' & Hr'' & HF).
    rewrite Hr''. cbn [bind]. f_equal.
    assert (Er2 : r = swaths_reverseDirOddSwaths (x :: r')) by congruence.
    rewrite Er2. rewrite (reverseDirOdd_ext (swath_reverse x) r'' r').
    - simpl. f_equal. apply reverseDirOdd_from_rev.
    - clear - HF. induction HF; constructor; auto.
      destruct H as [->| ->]; [left; auto|right]. rewrite swath_reverse_inv; auto.
  Qed.

  (** A custom order that does not start with swath 0: bit 1 changes nothing. *)
  Lemma gen_bit1_custom_noeffect o l v r :
    gen (Custom o) l v = Ok r -> N.testbit v 1 = false ->
    l <> [] -> nth 0 o 0 <> 0 ->
    gen (Custom o) l (v + 2)%N = Ok r.
  Proof.
    intros H Hv Hne0 H0.
    assert (Hb0 : N.testbit (v + 2) 0 = N.testbit v 0).
    { rewrite !N.bit0_odd, N.odd_add. simpl. apply xorb_false_r. }
    assert (Hb1 : N.testbit (v + 2) 1 = true).
    { rewrite N.testbit_odd, N.shiftr_div_pow2 in *. change (2 ^ 1)%N with 2%N in *.
      replace ((v + 2) / 2)%N with (v / 2 + 1)%N.
      2:{ change (v + 2)%N with (v + 1 * 2)%N. rewrite N.div_add; lia. }
      rewrite N.odd_add, Hv. reflexivity. }
    revert H. unfold genSortedSwaths.
    destruct (swaths_clone w_nonpos w_zero wkt l) as [c| | |] eqn:Ec; try discriminate.
    cbn [bind].
    assert (Hlen : length c = length l).
    { apply mapM_ok in Ec. apply Forall2_length in Ec. auto. }
    destruct c as [|c0 c'].
    { intro H. injection H as <-. reflexivity. }
    unfold changeStartPoint, swaths_reverse. rewrite Hb0, Hb1, Hv.
    set (c := c0 :: c') in *.
    destruct (sort_ok (map (swath_orient p_default p_lt) c)) as [HP _].
    apply Permutation_length in HP. rewrite map_length in HP.
    fold (swaths_sort p_default p_lt sort_fn c) in HP.
    set (q := swaths_sort p_default p_lt sort_fn c) in *.
    set (m := if N.testbit v 0 then rev q else q).
    assert (Hm : length m = length l).
    { unfold m. destruct (N.testbit v 0); rewrite ?rev_length; lia. }
    destruct m as [|x m'].
    { exfalso. assert (length c = S (length c')) by reflexivity. simpl in Hm. lia. }
    intro H.
    assert (E : vec_index (x :: m') 0 = Ok x) by reflexivity.
    rewrite E. cbn [bind]. clear E.
    assert (E : vec_set (x :: m') 0 (swath_reverse x) = Ok (swath_reverse x :: m')) by reflexivity.
    rewrite E. cbn [bind] in *. clear E.
    destruct (sortSwaths w_zero (Custom o) (x :: m')) as [r0| | |] eqn:Er; try discriminate.
    cbn [bind] in H.
    assert (Hn1 : x :: m' <> []) by discriminate.
    assert (Hn2 : swath_reverse x :: m' <> []) by discriminate.
    pose proof (sortSwaths_usable w_zero _ _ _ Hn1 Er) as Hu.
    destruct (sortSwaths_picks w_zero _ _ Hn1 Hu) as (r1 & Hr1 & Hp1).
    rewrite Er in Hr1. assert (r1 = r0) by congruence. subst r1.
    destruct (sortSwaths_picks w_zero (Custom o) (swath_reverse x :: m') Hn2 Hu) as (r2 & Hr2 & Hp2).
    rewrite Hr2. cbn [bind]. rewrite <- H. f_equal.
    assert (HF : Forall2 upto_rev r2 r0).
    { eapply picks_upto; [|exact Hp2|exact Hp1].
      constructor; [right; rewrite swath_reverse_inv; auto|apply Forall2_upto_refl]. }
    destruct Hp1 as [L1 P1]. destruct Hp2 as [L2 P2].
    destruct (P1 0) as [B1 E1]; [simpl; lia|]. destruct (P2 0) as [_ E2]; [simpl; lia|].
    unfold order_pos in E1, E2, B1.
    destruct (nth 0 o 0) as [|j]; [contradiction|].
    destruct r0 as [|y r0']; [discriminate|]. destruct r2 as [|y2 r2']; [discriminate|].
    simpl in E1, E2. assert (y2 = y) by congruence. subst y2.
    inversion HF; subst. apply reverseDirOdd_ext; auto.
  Qed.

  (** ** Geometric direction *)

  Lemma runs_right_reverse (s : swath) : runs_right p_lt s -> runs_left p_lt (swath_reverse s).
  Proof.
    intros (p & q & m & E & H). exists q, p, (rev m). split; auto.
    simpl. rewrite E. simpl. rewrite rev_app_distr. reflexivity.
  Qed.
  Lemma runs_left_reverse (s : swath) : runs_left p_lt s -> runs_right p_lt (swath_reverse s).
  Proof.
    intros (p & q & m & E & H). exists q, p, (rev m). split; auto.
    simpl. rewrite E. simpl. rewrite rev_app_distr. reflexivity.
  Qed.

  Lemma drawn_reverse c (s : swath) : drawn p_lt c s -> drawn p_lt c (swath_reverse s).
  Proof.
    intros [[H1 H2]|[H1 H2]].
    - right. simpl. rewrite H1. split; auto. apply runs_right_reverse; auto.
    - left. simpl. rewrite H1, negb_involutive. split; auto. apply runs_left_reverse; auto.
  Qed.

  Lemma same_swath_drawn c (a b : swath) :
    (forall p, In p (sw_path a) -> wkt p = p) ->
    drawn p_lt c a -> same_swath wkt a b -> drawn p_lt c b.
  Proof.
    intros Hw Hd (_ & _ & H).
    assert (Hm : map wkt (sw_path a) = sw_path a).
    { rewrite <- (map_id (sw_path a)) at 2. apply map_ext_in. auto. }
    rewrite Hm in H. destruct H as [[H1 H2]|[H1 H2]].
    - destruct Hd as [[D1 D2]|[D1 D2]]; [left|right]; (split; [congruence|]);
        unfold runs_right, runs_left in *; rewrite H2; auto.
    - apply drawn_reverse in Hd. destruct Hd as [[D1 D2]|[D1 D2]]; [left|right];
        simpl in D1; (split; [congruence|]);
        unfold runs_right, runs_left, swath_reverse in *; simpl in D2; rewrite H2; auto.
  Qed.

  Lemma gen_geometric k l v r c :
    gen k l v = Ok r ->
    (forall s p, In s l -> In p (sw_path s) -> wkt p = p) ->
    (forall s, In s l -> drawn p_lt c s) ->
    forall i a b, nth_error r i = Some a -> nth_error r (S i) = Some b ->
      (runs_right p_lt a /\ runs_left p_lt b) \/ (runs_left p_lt a /\ runs_right p_lt b).
  Proof.
    intros H Hw Hd i a b Ha Hb.
    pose proof (gen_alternates _ _ _ _ _ _ _ _ _ _ H i a b Ha Hb) as Halt.
    destruct (gen_perm w_nonpos w_zero p_default p_lt wkt sort_fn sort_ok _ _ _ _ H)
      as (l' & HP & HF).
    assert (Hall : forall x, In x r -> drawn p_lt c x).
    { intros x Hx. apply In_nth_error in Hx. destruct Hx as [j Hj].
      assert (Hj' : j < length l').
      { rewrite (Forall2_length HF). apply nth_error_Some. congruence. }
      destruct (nth_error l' j) as [y|] eqn:Ey; [|apply nth_error_None in Ey; lia].
      apply Forall2_nth_error in HF. destruct HF as [_ HF].
      assert (Hy : In y l) by (eapply Permutation_in; [symmetry; exact HP|eapply nth_error_In; eauto]).
      eapply same_swath_drawn; [intros; eapply Hw; eauto|apply Hd; eauto|eapply HF; eauto]. }
    pose proof (Hall a (nth_error_In _ _ Ha)) as Da.
    pose proof (Hall b (nth_error_In _ _ Hb)) as Db.
    destruct Da as [[A1 A2]|[A1 A2]], Db as [[B1 B2]|[B1 B2]]; auto;
      exfalso; rewrite A1, B1 in Halt; destruct c; discriminate.
  Qed.

  (** ** Which outcomes are possible *)

  Lemma mapM_clone_outcome (l : list swath) :
    (exists c, swaths_clone w_nonpos w_zero wkt l = Ok c) \/
    (swaths_clone w_nonpos w_zero wkt l = Throw InvalidArgument /\
     Exists (fun s => w_nonpos (sw_width s) = true) l).
  Proof.
    unfold swaths_clone. induction l as [|s l IH]; [left; simpl; eauto|].
    simpl. rewrite swath_clone_def. destruct (w_nonpos (sw_width s)) eqn:E; simpl.
    - right. split; auto.
    - destruct IH as [[c ->]|[-> H]]; simpl; [left; eauto|right; auto].
  Qed.

  Lemma sortSwaths_outcome k (l : list swath) : l <> [] ->
    (exists r, sortSwaths w_zero k l = Ok r) \/
    (exists e, sortSwaths w_zero k l = Throw e /\ exists o, k = Custom o) \/
    (sortSwaths w_zero k l = UB /\ ((k = Snake /\ length l = 1) \/ k = Spiral 0)).
  Proof.
    intros Hl. destruct k as [| |s|o]; simpl.
    - left; simpl; eauto. unfold boustrophedon_sortSwaths. eauto.
    - destruct (Nat.eq_dec (length l) 1) as [E|E].
      + right; right. split; auto.
        destruct l as [|x [|y l]]; try discriminate. apply snake_one.
      + left. destruct (snake_spec l) as (r & Hr & _); eauto.
        destruct l; [contradiction|simpl; lia].
    - destruct s; [right; right; auto|]. left.
      destruct (spiral_spec (S s) l) as (r & Hr & _); [lia|]. eauto.
    - destruct (custom_spec w_zero o l Hl) as (H1 & H2 & H3 & H4).
      destruct (ListDec.NoDup_dec Nat.eq_dec o) as [Hnd|Hnd]; [|right; left; eauto 6].
      destruct (Nat.eq_dec (length o) (length l)) as [E|E]; [|right; left; eauto 6].
      destruct (existsb (fun x => length l <=? x) o) eqn:Ex.
      + apply existsb_exists in Ex. destruct Ex as (x & Hx & Hle). apply Nat.leb_le in Hle.
        right; left. exists InvalidArgument. split; eauto.
      + left. destruct H4 as (r & Hr & _); eauto.
        apply NoDup_Permutation_bis; auto.
        * rewrite seq_length. lia.
        * intros x Hx. apply in_seq. destruct (lt_dec x (length l)); [lia|]. exfalso.
          assert (existsb (fun x0 => length l <=? x0) o = true).
          { apply existsb_exists. exists x. split; auto. apply Nat.leb_le. lia. }
          congruence.
  Qed.

  Lemma gen_outcomes k l v :
    (exists r, gen k l v = Ok r) \/
    (gen k l v = Throw InvalidArgument /\ Exists (fun s => w_nonpos (sw_width s) = true) l) \/
    (exists e, gen k l v = Throw e /\ exists o, k = Custom o) \/
    (gen k l v = UB /\ ((k = Snake /\ length l = 1) \/ (k = Spiral 0 /\ l <> []))).
  Proof.
    unfold genSortedSwaths.
    destruct (mapM_clone_outcome l) as [[c Ec]|[Ec Hw]]; rewrite Ec; cbn [bind]; [|auto].
    assert (Hlen : length c = length l).
    { apply mapM_ok in Ec. apply Forall2_length in Ec. auto. }
    destruct c as [|c0 c']; [left; eauto|]. set (c := c0 :: c') in *.
    destruct (sort_ok (map (swath_orient p_default p_lt) c)) as [HP _].
    apply Permutation_length in HP. rewrite map_length in HP.
    fold (swaths_sort p_default p_lt sort_fn c) in HP.
    set (q := swaths_sort p_default p_lt sort_fn c) in *.
    assert (E1 : exists l1, changeStartPoint q v = Ok l1 /\ length l1 = length l).
    { unfold changeStartPoint, swaths_reverse.
      assert (Hq : length (if N.testbit v 0 then rev q else q) = length l)
        by (destruct (N.testbit v 0); rewrite ?rev_length; lia).
      destruct (if N.testbit v 0 then rev q else q) as [|x q'].
      { exfalso. assert (length c = S (length c')) by reflexivity. simpl in Hq. lia. }
      destruct (N.testbit v 1); [|eauto].
      exists (swath_reverse x :: q'). split; auto. }
    destruct E1 as (l1 & -> & Hl1). cbn [bind].
    assert (Hne : l1 <> []).
    { intro E. subst l1. assert (length c = S (length c')) by reflexivity. simpl in Hl1. lia. }
    destruct (sortSwaths_outcome k l1 Hne) as [[r ->]|[(e & -> & o & ->)|[-> H]]]; cbn [bind].
    - left; eauto.
    - right; right; left. eauto.
    - right; right; right. split; auto. rewrite Hl1 in H.
      destruct H as [H|H]; auto. right. split; auto.
      intro E. subst l. simpl in *. lia.
  Qed.

  (** ** append *)

  Lemma append_lines_spec ty w : forall lines (l : list swath),
    w_nonpos w = false ->
    swaths_append_lines w_nonpos w_zero wkt l lines w ty =
    Ok (l ++ map (fun p => mkSwath P W (Z.of_nat (fst p)) (map wkt (snd p)) w true ty)
             (combine (seq (length l) (length lines)) lines)).
  Proof.
    unfold swaths_append_lines.
    induction lines as [|x lines IH]; intros l Hw; simpl.
    - rewrite app_nil_r. auto.
    - unfold swaths_append_line at 1, swath_new, swath_setWidth. rewrite Hw. simpl.
      rewrite IH by auto. rewrite app_length. simpl. rewrite Nat.add_1_r, <- app_assoc. reflexivity.
  Qed.

  Lemma append_lines_bad ty w lines (l : list swath) :
    w_nonpos w = true -> lines <> [] ->
    swaths_append_lines w_nonpos w_zero wkt l lines w ty = Throw InvalidArgument.
  Proof.
    intros Hw Hn. destruct lines; [contradiction|].
    unfold swaths_append_lines; simpl.
    unfold swaths_append_line, swath_new, swath_setWidth. rewrite Hw. reflexivity.
  Qed.

  (** ** SwathsByCells *)

  Lemma sbc_flatten_concat_gen : forall (d : list (list swath)) acc,
    fold_left (fun acc c => swaths_append_swaths acc c) d acc = acc ++ concat d.
  Proof.
    induction d; intros acc; simpl; [rewrite app_nil_r; auto|].
    rewrite IHd. unfold swaths_append_swaths. rewrite app_assoc. auto.
  Qed.
  Lemma sbc_flatten_concat (d : list (list swath)) : sbc_flatten d = concat d.
  Proof. apply sbc_flatten_concat_gen. Qed.

  Lemma sbc_getSwath_spec : forall (d : list (list swath)) i,
    sbc_getSwath d i = match nth_error (concat d) i with
                       | Some s => Ok s | None => Throw OutOfRange end.
  Proof.
    induction d as [|c d IH]; intros i; simpl.
    - destruct i; auto.
    - destruct (Nat.leb_spec (length c) i).
      + rewrite IH. rewrite nth_error_app2 by auto. auto.
      + unfold vec_at. rewrite nth_error_app1 by auto. auto.
  Qed.

  Lemma sbc_sizeTotal_spec (d : list (list swath)) :
    (Z.of_nat (length (concat d)) < 2147483648)%Z ->
    sbc_sizeTotal d = Z.of_nat (length (concat d)).
  Proof.
    unfold sbc_sizeTotal.
    assert (H : forall d acc, (0 <= acc)%Z ->
      (acc + Z.of_nat (length (concat d)) < 2147483648)%Z ->
      fold_left (fun acc (c : list swath) =>
         to_int32 (to_size (to_size acc + Z.of_nat (length c)))%Z) d acc
      = (acc + Z.of_nat (length (concat d)))%Z).
    { clear. induction d as [|c d IH]; intros acc Ha H; simpl in *.
      - lia.
      - rewrite app_length in *.
        assert (E : to_int32 (to_size (to_size acc + Z.of_nat (length c)))
                    = (acc + Z.of_nat (length c))%Z).
        { unfold to_int32, to_size. rewrite !(Z.mod_small acc), Z.mod_small with
            (a := (acc + Z.of_nat (length c))%Z) by lia.
          rewrite Z.mod_small by lia. lia. }
        rewrite E, IH by lia. lia. }
    intros Hd. rewrite H by lia. unfold to_size. apply Z.mod_small. lia.
  Qed.
End Gen3.

(** ** Comparison operators *)
Section Cmp.
  Context {P W : Type}.
  Variable p_default : P.
  Variable w_neq : W -> W -> bool.
  Variable p_neq_xy : P -> P -> bool.
  Variable path_length : list P -> W.
  Notation swath := (swath P W).
  Notation neq := (swath_neq p_default w_neq p_neq_xy path_length).
  Notation eq := (swath_eq p_default w_neq p_neq_xy path_length).

  Lemma neq_sym_same_dir (s t : swath) :
    (forall a b, w_neq a b = w_neq b a) -> (forall a b, p_neq_xy a b = p_neq_xy b a) ->
    sw_dir s = sw_dir t -> neq s t = neq t s.
  Proof.
    intros Hw Hp Hd. unfold swath_neq, swath_hasSameDir. rewrite Hd, !eqb_reflx.
    rewrite (Hw (sw_width s)), (Hp (swath_startPoint p_default s)),
      (Hw (path_length (sw_path s))). reflexivity.
  Qed.

  Lemma start_end_rev (s : swath) :
    swath_endPoint p_default (swath_reverse s) = swath_startPoint p_default s.
  Proof. unfold swath_endPoint, swath_startPoint, swath_reverse. simpl. rewrite rev_involutive. auto. Qed.

  Lemma end_start_rev (s : swath) :
    swath_startPoint p_default (swath_reverse s) = swath_endPoint p_default s.
  Proof. unfold swath_endPoint, swath_startPoint, swath_reverse. simpl. auto. Qed.

  Lemma eq_reverse (s : swath) :
    (w_neq (sw_width s) (sw_width s) = false) ->
    p_neq_xy (swath_startPoint p_default s) (swath_startPoint p_default s) = false ->
    p_neq_xy (swath_endPoint p_default s) (swath_endPoint p_default s) = false ->
    w_neq (path_length (rev (sw_path s))) (path_length (sw_path s)) = false ->
    w_neq (path_length (sw_path s)) (path_length (rev (sw_path s))) = false ->
    eq s (swath_reverse s) = true /\ eq (swath_reverse s) s = true.
  Proof.
    intros H1 H2 H3 H4 H5. unfold swath_eq, swath_neq, swath_hasSameDir.
    rewrite start_end_rev, end_start_rev. simpl. rewrite H1.
    destruct (sw_dir s); simpl; rewrite H2, H3, H4, H5; auto.
  Qed.
End Cmp.
