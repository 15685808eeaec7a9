(** Lemmas about custom order, direction alternation and genSortedSwaths. *)
From Coq Require Import List ListDec Arith ZArith Lia Bool Permutation Sorted.
From Verif Require Import Outcome ListAux Swath_Model Swath_Spec Swath_Proofs.
Import ListNotations.

(** ** sort / unique on size_t *)

Lemma nat_insert_perm x l : Permutation (x :: l) (nat_insert x l).
Proof.
  induction l; simpl; auto. destruct (x <=? a); auto.
  eapply perm_trans; [apply perm_swap|]. constructor. auto.
Qed.

Lemma nat_sort_perm l : Permutation l (nat_sort l).
Proof.
  induction l; simpl; auto. eapply perm_trans; [|apply nat_insert_perm]. constructor. auto.
Qed.

Lemma nat_insert_sorted x l : StronglySorted le l -> StronglySorted le (nat_insert x l).
Proof.
  induction 1; simpl.
  - constructor; constructor.
  - destruct (Nat.leb_spec x a).
    + constructor; [constructor; auto|]. constructor; auto.
      eapply Forall_impl; [|eassumption]. intros; lia.
    + constructor; auto.
      eapply Permutation_Forall; [apply nat_insert_perm|]. constructor; auto; lia.
Qed.

Lemma nat_sort_sorted l : StronglySorted le (nat_sort l).
Proof. induction l; simpl; [constructor|]. apply nat_insert_sorted; auto. Qed.

Lemma nat_unique_le l : length (nat_unique l) <= length l.
Proof.
  induction l as [|x [|y t] IH]; simpl in *; auto.
  destruct (x =? y); simpl; lia.
Qed.

Lemma nat_unique_full l : StronglySorted le l ->
  (length (nat_unique l) = length l <-> NoDup l).
Proof.
  induction l as [|x [|y t] IH]; intro Hs.
  - simpl. split; auto. constructor.
  - simpl. split; auto. intros _. constructor; auto. constructor.
  - inversion Hs as [|? ? Hs' Hx]; subst.
    specialize (IH Hs').
    change (nat_unique (x :: y :: t)) with
      (if x =? y then nat_unique (y :: t) else x :: nat_unique (y :: t)).
    pose proof (nat_unique_le (y :: t)).
    destruct (Nat.eqb_spec x y) as [->|Hne].
    + split; intro H1.
      * cbn [length] in *. lia.
      * exfalso. inversion H1. simpl in *. tauto.
    + split; intro H1.
      * constructor.
        -- inversion Hs' as [|? ? _ Hy]; subst. rewrite Forall_forall in Hx, Hy.
           intros [E|E]; [subst; lia|]. specialize (Hx y (or_introl eq_refl)).
           specialize (Hy x E). lia.
        -- apply IH. cbn [length] in *. lia.
      * cbn [length]. f_equal. apply IH. inversion H1; auto.
Qed.

Lemma unique_check o : length (nat_unique (nat_sort o)) = length o <-> NoDup o.
Proof.
  replace (length o) with (length (nat_sort o))
    by (symmetry; apply Permutation_length, nat_sort_perm).
  rewrite (nat_unique_full _ (nat_sort_sorted o)).
  split; apply Permutation_NoDup; [symmetry|]; apply nat_sort_perm.
Qed.

Lemma fold_max_ge l : forall x, x <= fold_left Nat.max l x /\
  (forall y, In y l -> y <= fold_left Nat.max l x) /\
  (fold_left Nat.max l x = x \/ In (fold_left Nat.max l x) l).
Proof.
  induction l as [|a l IH]; intros x; simpl.
  - repeat split; auto. intros y [].
  - destruct (IH (Nat.max x a)) as (H1 & H2 & H3). repeat split.
    + lia.
    + intros y [->|H]; auto. lia.
    + destruct H3 as [H3|H3]; auto.
      destruct (Nat.max_dec x a) as [E|E]; rewrite E in *; auto.
Qed.

Section CustomProof.
  Context {P W : Type}.
  Variable w_zero : W.
  Notation swath := (swath P W).

  Lemma custom_check_spec (o : list nat) (l : list swath) :
    l <> [] ->
    custom_check o l =
      if negb (length (nat_unique (nat_sort o)) =? length o) then Throw InvalidArgument
      else if negb (length l =? length o) then Throw LengthError
      else if existsb (fun x => length l <=? x) o then Throw InvalidArgument
      else Ok tt.
  Proof.
    intros Hl. unfold custom_check.
    destruct (negb _); auto. destruct (Nat.eqb_spec (length l) (length o)) as [E|E]; auto.
    cbn [negb]. destruct o as [|x t].
    { destruct l; [contradiction|discriminate]. }
    destruct (fold_max_ge t x) as (H1 & H2 & H3).
    assert (Hpos : length l > 0) by (destruct l; [contradiction|simpl; lia]).
    destruct (existsb _ (x :: t)) eqn:Ex.
    - apply existsb_exists in Ex. destruct Ex as (y & Hy & Hle). apply Nat.leb_le in Hle.
      destruct (Nat.ltb_spec (length l - 1) (fold_left Nat.max t x)); auto.
      exfalso. destruct Hy as [<-|Hy]; [lia|]. specialize (H2 y Hy). lia.
    - destruct (Nat.ltb_spec (length l - 1) (fold_left Nat.max t x)); auto.
      exfalso.
      assert (Hin : In (fold_left Nat.max t x) (x :: t)).
      { destruct H3 as [->|H3]; simpl; auto. }
      assert (existsb (fun x0 => length l <=? x0) (x :: t) = true).
      { apply existsb_exists. exists (fold_left Nat.max t x). split; auto. apply Nat.leb_le. lia. }
      congruence.
  Qed.

  Lemma custom_fold (l : list swath) : forall o k acc,
    k + length o <= length acc ->
    (forall x, In x o -> x < length l) ->
    exists r,
      foldM (fun acc p => do s <- vec_index l (snd p); vec_set acc (fst p) s)
            (combine (seq k (length o)) o) acc = Ok r /\
      length r = length acc /\
      (forall i, i < k -> nth_error r i = nth_error acc i) /\
      (forall i, i < length o -> nth_error r (k + i) = nth_error l (nth i o 0)).
  Proof.
    induction o as [|x o IH]; intros k acc Hk Hin; simpl in *.
    - exists acc. repeat split; auto. intros; lia.
    - unfold vec_index at 1. destruct (nth_error l x) as [s|] eqn:Ex.
      2:{ apply nth_error_None in Ex. specialize (Hin x (or_introl eq_refl)). lia. }
      cbn [bind].
      destruct (vec_set acc k s) as [acc'| | |] eqn:Es.
      2-4: exfalso; unfold vec_set in Es; destruct (nth_error acc k) eqn:E;
           [discriminate|apply nth_error_None in E; lia].
      cbn [bind]. destruct (vec_set_ok _ _ _ _ Es) as (L1 & L2 & L3 & L4).
      destruct (IH (S k) acc') as (r & Hr & R1 & R2 & R3); [lia|auto|].
      exists r. split; [exact Hr|]. split; [lia|]. split.
      + intros i Hi. rewrite R2 by lia. apply L4. lia.
      + intros [|i] Hi.
        * rewrite Nat.add_0_r, R2, L3 by lia. auto.
        * replace (k + S i) with (S k + i) by lia. apply R3. lia.
  Qed.

  Lemma custom_spec (o : list nat) (l : list swath) :
    l <> [] ->
    (~ NoDup o -> custom_sortSwaths w_zero o l = Throw InvalidArgument) /\
    (NoDup o -> length o <> length l -> custom_sortSwaths w_zero o l = Throw LengthError) /\
    (NoDup o -> length o = length l -> (exists x, In x o /\ length l <= x) ->
       custom_sortSwaths w_zero o l = Throw InvalidArgument) /\
    (Permutation o (seq 0 (length l)) ->
       exists r, custom_sortSwaths w_zero o l = Ok r /\ picks (fun i => nth i o 0) l r).
  Proof.
    intros Hl. unfold custom_sortSwaths. rewrite custom_check_spec by auto.
    pose proof (unique_check o) as Hu.
    repeat split.
    - intros Hnd. destruct (Nat.eqb_spec (length (nat_unique (nat_sort o))) (length o)); auto.
      tauto.
    - intros Hnd Hlen. rewrite (proj2 Hu Hnd), Nat.eqb_refl. cbn [negb].
      destruct (Nat.eqb_spec (length l) (length o)); auto. lia.
    - intros Hnd Hlen (x & Hx & Hxl). rewrite (proj2 Hu Hnd), Hlen, !Nat.eqb_refl. cbn [negb].
      replace (existsb _ o) with true; auto. symmetry. apply existsb_exists.
      exists x. split; auto. apply Nat.leb_le; auto.
    - intros Hp.
      assert (Hnd : NoDup o) by (eapply Permutation_NoDup; [symmetry; eassumption|apply seq_NoDup]).
      assert (Hlen : length o = length l) by (rewrite (Permutation_length Hp); apply seq_length).
      assert (Hin : forall x, In x o -> x < length l).
      { intros x Hx. apply (Permutation_in x Hp) in Hx. apply in_seq in Hx. lia. }
      rewrite (proj2 Hu Hnd), Hlen, !Nat.eqb_refl. cbn [negb].
      replace (existsb _ o) with false.
      2:{ symmetry. apply not_true_is_false. intro H. apply existsb_exists in H.
          destruct H as (x & Hx & H). apply Nat.leb_le in H. specialize (Hin x Hx). lia. }
      cbn [bind].
      destruct (custom_fold l o 0 (repeat (swath_default w_zero) (length l)))
        as (r & Hr & R1 & _ & R3); [rewrite repeat_length; lia|auto|].
      rewrite Hlen in Hr. exists r. split; auto.
      rewrite repeat_length in R1. split; auto. intros i Hi. split.
      + apply Hin. apply nth_In. lia.
      + apply (R3 i). lia.
  Qed.

  Lemma custom_ok_perm (o : list nat) (l r : list swath) :
    l <> [] -> custom_sortSwaths w_zero o l = Ok r -> Permutation o (seq 0 (length l)).
  Proof.
    intros Hl H. destruct (custom_spec o l Hl) as (H1 & H2 & H3 & _).
    destruct (ListDec.NoDup_dec Nat.eq_dec o) as [Hnd|Hnd]; [|rewrite H1 in H by auto; discriminate].
    destruct (Nat.eq_dec (length o) (length l)) as [E|E];
      [|rewrite H2 in H by auto; discriminate].
    destruct (existsb (fun x => length l <=? x) o) eqn:Ex.
    { apply existsb_exists in Ex. destruct Ex as (x & Hx & Hle). apply Nat.leb_le in Hle.
      rewrite H3 in H by eauto. discriminate. }
    apply NoDup_Permutation_bis; auto.
    - rewrite seq_length. lia.
    - intros x Hx. apply in_seq. destruct (lt_dec x (length l)); [lia|]. exfalso.
      assert (existsb (fun x0 => length l <=? x0) o = true).
      { apply existsb_exists. exists x. split; auto. apply Nat.leb_le. lia. }
      congruence.
  Qed.
End CustomProof.

Lemma picks_perm {A} (o : list nat) (l r : list A) :
  Permutation o (seq 0 (length l)) -> picks (fun i => nth i o 0) l r -> Permutation l r.
Proof.
  intros Hp [Hlen Hr].
  destruct l as [|d l'] eqn:El.
  { destruct r; [auto|discriminate]. }
  rewrite <- El in *. clear El.
  assert (Ho : length o = length l) by (rewrite (Permutation_length Hp); apply seq_length).
  assert (E : r = map (fun i => nth i l d) o).
  { apply nth_error_ext. intro i. destruct (lt_dec i (length l)) as [Hi|Hi].
    - destruct (Hr i Hi) as [Hlt ->].
      rewrite (nth_error_nth' l d Hlt). symmetry.
      apply (map_nth_error (fun i => nth i l d)). apply nth_error_nth'. lia.
    - transitivity (@None A); [|symmetry]; apply nth_error_None; [lia|rewrite map_length; lia]. }
  rewrite E. transitivity (map (fun i => nth i l d) (seq 0 (length l))).
  - assert (E2 : l = map (fun i => nth i l d) (seq 0 (length l))).
    { apply nth_error_ext. intro i. destruct (lt_dec i (length l)) as [Hi|Hi].
      - rewrite (nth_error_nth' l d Hi). symmetry.
        apply (map_nth_error (fun i => nth i l d)).
        rewrite (nth_error_nth' _ 0) by (rewrite seq_length; lia). rewrite seq_nth by lia. reflexivity.
      - transitivity (@None A); [|symmetry]; apply nth_error_None; [lia|rewrite map_length, seq_length; lia]. }
    rewrite E2 at 1. auto.
  - apply Permutation_map. symmetry. auto.
Qed.

(** ** Direction alternation *)

Section GenProof.
  Context {P W : Type}.
  Variable w_nonpos : W -> bool.
  Variable w_zero : W.
  Variable p_default : P.
  Variable p_lt : P -> P -> bool.
  Variable wkt : P -> P.
  Variable sort_fn : list (swath P W) -> list (swath P W).
  Hypothesis sort_ok : forall l, std_sorted swath_lt l (sort_fn l).
  Notation swath := (swath P W).

  Lemma swath_reverse_inv (s : swath) : swath_reverse (swath_reverse s) = s.
  Proof.
    destruct s. unfold swath_reverse. simpl. rewrite rev_involutive, negb_involutive. reflexivity.
  Qed.

  Lemma same_swath_reverse tr (a b : swath) :
    same_swath tr a b -> same_swath tr a (swath_reverse b).
  Proof.
    unfold same_swath, swath_reverse; simpl. intros (H1 & H2 & [[H3 H4]|[H3 H4]]);
      repeat split; auto.
    - right. rewrite H3, H4. auto.
    - left. rewrite H3, H4, negb_involutive, rev_involutive. auto.
  Qed.

  Definition upto_rev (a b : swath) : Prop := b = a \/ b = swath_reverse a.

  Lemma same_swath_upto tr (a b c : swath) :
    same_swath tr a b -> upto_rev b c -> same_swath tr a c.
  Proof. intros H [->| ->]; auto. apply same_swath_reverse; auto. Qed.

  Lemma Forall2_upto tr (l m m' : list swath) :
    Forall2 (same_swath tr) l m -> Forall2 upto_rev m m' -> Forall2 (same_swath tr) l m'.
  Proof.
    intros HF HU. revert l HF. induction HU; intros l0 HF; inversion HF; subst; constructor.
    - eapply same_swath_upto; eauto.
    - apply IHHU; auto.
  Qed.

  Lemma reverseDirOdd_from_upto : forall (l : list swath) prev,
    Forall2 upto_rev l (reverseDirOdd_from prev l).
  Proof.
    induction l; intros prev; simpl; constructor; auto.
    unfold swath_targetOppositeDirAs. destruct (swath_hasSameDir a prev); [right|left]; auto.
  Qed.

  Lemma reverseDirOdd_upto (l : list swath) :
    Forall2 upto_rev l (swaths_reverseDirOddSwaths l).
  Proof.
    destruct l; simpl; constructor; [left; auto|apply reverseDirOdd_from_upto].
  Qed.

  Lemma target_opposite_dir (s t : swath) :
    sw_dir (swath_targetOppositeDirAs s t) = negb (sw_dir t).
  Proof.
    unfold swath_targetOppositeDirAs, swath_hasSameDir.
    destruct (sw_dir t) eqn:E1, (sw_dir s) eqn:E2; simpl; rewrite ?E2; auto.
  Qed.

  Lemma reverseDirOdd_alt (l : list swath) :
    alternates sw_dir (swaths_reverseDirOddSwaths l).
  Proof.
    destruct l as [|s l]; [intros [|i]; discriminate|]. simpl.
    revert s. induction l; intros s i x y Hx Hy.
    - destruct i; simpl in Hy; [discriminate|destruct i; discriminate].
    - destruct i.
      + simpl in *. injection Hx as <-. injection Hy as <-. apply target_opposite_dir.
      + simpl in Hx. eapply (IHl _ i); eauto.
  Qed.

  (** ** The main lemma *)

  Lemma swath_clone_ok (s c : swath) :
    swath_clone w_nonpos w_zero wkt s = Ok c ->
    w_nonpos (sw_width s) = false /\
    c = mkSwath P W (sw_id s) (map wkt (sw_path s)) (sw_width s) (sw_dir s) MAINLAND.
  Proof.
    unfold swath_clone, swath_new, swath_setWidth, swath_setCreationDir. simpl.
    destruct (w_nonpos (sw_width s)); simpl; [discriminate|].
    intro H. injection H as <-. auto.
  Qed.

  Lemma swath_clone_def (s : swath) :
    swath_clone w_nonpos w_zero wkt s =
    if w_nonpos (sw_width s) then Throw InvalidArgument
    else Ok (mkSwath P W (sw_id s) (map wkt (sw_path s)) (sw_width s) (sw_dir s) MAINLAND).
  Proof.
    unfold swath_clone, swath_new, swath_setWidth, swath_setCreationDir. simpl.
    destruct (w_nonpos (sw_width s)); simpl; auto.
  Qed.

  Lemma swath_clone_same (s c : swath) :
    swath_clone w_nonpos w_zero wkt s = Ok c -> same_swath wkt s c.
  Proof.
    intros H. apply swath_clone_ok in H. destruct H as [_ ->]. repeat split; simpl; auto.
  Qed.

  Lemma orient_upto (s : swath) : upto_rev s (swath_orient p_default p_lt s).
  Proof. unfold swath_orient. destruct (p_lt _ _); [right|left]; auto. Qed.

  Lemma StronglySorted_rel {A B} (R : A -> B -> Prop) (Q : B -> B -> Prop) (Q' : A -> A -> Prop) :
    (forall a a' b b', R a b -> R a' b' -> Q b b' -> Q' a a') ->
    forall l l', Forall2 R l l' -> StronglySorted Q l' -> StronglySorted Q' l.
  Proof.
    intros H l l' HF. induction HF; intros HS; constructor; inversion HS; subst; auto.
    clear - H H0 H4 HF. induction HF; constructor; inversion H4; subst; eauto.
  Qed.

  Lemma Forall2_Permutation_r {A B} (R : A -> B -> Prop) (l : list A) (m m' : list B) :
    Forall2 R l m -> Permutation m m' -> exists l', Permutation l l' /\ Forall2 R l' m'.
  Proof.
    intros HF HP.
    assert (flip : forall X Y (Q : X -> Y -> Prop) x y,
              Forall2 Q x y -> Forall2 (fun b a => Q a b) y x).
    { intros. induction H; constructor; auto. }
    apply flip in HF.
    destruct (Permutation_Forall2 HP HF) as (l' & HP' & HF').
    exists l'. split; [exact HP'|]. apply flip in HF'. exact HF'.
  Qed.

  Lemma sort_stage (l c : list swath) :
    swaths_clone w_nonpos w_zero wkt l = Ok c ->
    exists s, Permutation l s /\
      StronglySorted (fun a b => (sw_id a <= sw_id b)%Z) s /\
      Forall2 (same_swath wkt) s (swaths_sort p_default p_lt sort_fn c).
  Proof.
    intros Hc. apply mapM_ok in Hc.
    assert (HF : Forall2 (same_swath wkt) l (map (swath_orient p_default p_lt) c)).
    { clear - Hc. induction Hc; simpl; constructor; auto.
      eapply same_swath_upto; [eapply swath_clone_same; eassumption|apply orient_upto]. }
    unfold swaths_sort. destruct (sort_ok (map (swath_orient p_default p_lt) c)) as [HP HS].
    destruct (Forall2_Permutation_r _ _ _ _ HF HP) as (s & Hs & HF').
    exists s. repeat split; auto.
    eapply StronglySorted_rel; [|exact HF'|exact HS].
    intros a a' b b' (E1 & _) (E2 & _) H. unfold swath_lt in H. apply Z.ltb_ge in H. lia.
  Qed.

  Lemma swath_lt_head (l : list swath) v r :
    changeStartPoint l v = Ok r ->
    Forall2 upto_rev (if N.testbit v 0 then rev l else l) r.
  Proof.
    unfold changeStartPoint, swaths_reverse. set (l1 := if N.testbit v 0 then rev l else l).
    assert (Hrefl : forall m : list swath, Forall2 upto_rev m m).
    { induction m; constructor; auto. left; auto. }
    destruct (N.testbit v 1).
    - destruct l1 as [|s l1']; simpl; [discriminate|].
      unfold vec_set. simpl. intro H. injection H as <-. constructor; auto. right; auto.
    - intro H. injection H as <-. auto.
  Qed.

  Lemma picks_Forall2 {A B} (R : A -> B -> Prop) p (l : list A) (m m' : list B) :
    Forall2 R l m -> picks p m m' ->
    length m' = length l /\
    forall i, i < length l -> exists a b,
      nth_error l (p i) = Some a /\ nth_error m' i = Some b /\ R a b.
  Proof.
    intros HF [HL HP]. apply Forall2_nth_error in HF. destruct HF as [HL' HF].
    split; [lia|]. intros i Hi. destruct (HP i ltac:(lia)) as [Hlt E].
    destruct (nth_error l (p i)) as [a|] eqn:Ea.
    2:{ apply nth_error_None in Ea. lia. }
    destruct (nth_error m (p i)) as [b|] eqn:Eb.
    2:{ apply nth_error_None in Eb. lia. }
    exists a, b. repeat split; auto. eauto.
  Qed.

  (** What each strategy does with a non-empty list. *)
  Lemma sortSwaths_picks k (l : list swath) : l <> [] ->
    order_usable k (length l) ->
    exists r, sortSwaths w_zero k l = Ok r /\ picks (order_pos k (length l)) l r.
  Proof.
    intros Hl Hu. destruct k as [| |s|o]; simpl in *.
    - exists l. split; auto. split; auto.
    - apply snake_spec; auto. destruct l; [contradiction|simpl; lia].
    - apply spiral_spec. lia.
    - apply custom_spec; auto.
  Qed.

  Lemma sortSwaths_usable k (l r : list swath) : l <> [] ->
    sortSwaths w_zero k l = Ok r -> order_usable k (length l).
  Proof.
    intros Hl H. destruct k as [| |s|o]; simpl in *; auto.
    - intro E. destruct l as [|x [|y t]]; try discriminate.
    - destruct s; [discriminate|lia].
    - eapply custom_ok_perm; eauto.
  Qed.

  Lemma gen_positions k l v r :
    genSortedSwaths w_nonpos w_zero p_default p_lt wkt sort_fn k l v = Ok r ->
    exists s, Permutation l s /\
      StronglySorted (fun a b => (sw_id a <= sw_id b)%Z) s /\
      length r = length l /\
      forall i, i < length l -> exists a b,
        nth_error s (variant_pos (N.odd v) (length l) (order_pos k (length l) i)) = Some a /\
        nth_error r i = Some b /\ same_swath wkt a b.
  Proof.
    unfold genSortedSwaths. destruct (swaths_clone w_nonpos w_zero wkt l) as [c| | |] eqn:Ec; try discriminate.
    cbn [bind]. destruct (sort_stage l c Ec) as (s & HP & HS & HF).
    assert (Hlen : length c = length l).
    { apply mapM_ok in Ec. apply Forall2_length in Ec. auto. }
    destruct c as [|c0 c'].
    { intro H. injection H as <-. destruct l; [|discriminate].
      exists []. repeat split; auto; try constructor. intros; simpl in *; lia. }
    set (c := c0 :: c') in *.
    destruct (changeStartPoint _ v) as [l1| | |] eqn:E1; try discriminate. cbn [bind].
    destruct (sortSwaths w_zero k l1) as [l2| | |] eqn:E2; try discriminate. cbn [bind].
    intro H. injection H as <-.
    exists s. split; auto. split; auto.
    apply swath_lt_head in E1.
    assert (Hs : length s = length l) by (symmetry; apply Permutation_length; auto).
    assert (HF1 : Forall2 (same_swath wkt) (if N.testbit v 0 then rev s else s) l1).
    { assert (HF0 : Forall2 (same_swath wkt) (if N.testbit v 0 then rev s else s)
               (if N.testbit v 0 then rev (swaths_sort p_default p_lt sort_fn c)
                else swaths_sort p_default p_lt sort_fn c)).
      { destruct (N.testbit v 0); auto. clear - HF. induction HF; simpl; auto.
        apply Forall2_app; auto. }
      exact (Forall2_upto _ _ _ _ HF0 E1). }
    assert (Hl1 : length l1 = length l).
    { apply Forall2_length in HF1. destruct (N.testbit v 0); rewrite ?rev_length in HF1; lia. }
    assert (Hne : l1 <> []).
    { intro E. subst l1. simpl in *. lia. }
    pose proof (sortSwaths_usable _ _ _ Hne E2) as Hu.
    destruct (sortSwaths_picks k l1 Hne Hu) as (r & Hr & Hp).
    rewrite E2 in Hr. injection Hr as <-.
    rewrite Hl1 in Hp.
    destruct (picks_Forall2 _ _ _ _ _ HF1 Hp) as [HL HX].
    pose proof (reverseDirOdd_upto l2) as HU. apply Forall2_nth_error in HU. destruct HU as [HLU HU].
    assert (Hlm : length (if N.testbit v 0 then rev s else s) = length l).
    { destruct (N.testbit v 0); rewrite ?rev_length; auto. }
    rewrite Hlm in HL, HX. split; [lia|].
    intros i Hi. destruct (HX i Hi) as (a & b & Ha & Hb & Hab).
    destruct (nth_error (swaths_reverseDirOddSwaths l2) i) as [b'|] eqn:Eb'.
    2:{ apply nth_error_None in Eb'. lia. }
    exists a, b'. split; [|split; auto].
    - unfold variant_pos. rewrite <- N.bit0_odd.
      destruct (N.testbit v 0); auto.
      rewrite <- Hs. rewrite <- Ha.
      assert (Hlt : order_pos k (length l) i < length s).
      { destruct Hp as [_ Hp]. rewrite Hl1 in Hp. rewrite Hs. apply Hp; auto. }
      rewrite (nth_error_rev_lt s _ Hlt). f_equal. rewrite Hs. reflexivity.
    - eapply same_swath_upto; [eassumption|]. eapply HU; eauto.
  Qed.

  Lemma gen_alternates k l v r :
    genSortedSwaths w_nonpos w_zero p_default p_lt wkt sort_fn k l v = Ok r ->
    alternates sw_dir r.
  Proof.
    unfold genSortedSwaths. destruct (swaths_clone w_nonpos w_zero wkt l) as [c| | |]; try discriminate.
    cbn [bind]. destruct c as [|c0 c'].
    { intro H. injection H as <-. intros [|i]; discriminate. }
    destruct (changeStartPoint _ v) as [l1| | |]; try discriminate. cbn [bind].
    destruct (sortSwaths w_zero k l1) as [l2| | |]; try discriminate. cbn [bind].
    intro H. injection H as <-. apply reverseDirOdd_alt.
  Qed.

  Lemma order_pos_perm k n : order_usable k n -> n <> 0 ->
    exists o, Permutation o (seq 0 n) /\ forall i, i < n -> nth i o 0 = order_pos k n i.
  Proof.
    intros Hu Hn.
    set (l := map (fun i => mkSwath P W (Z.of_nat i) [] w_zero true MAINLAND) (seq 0 n)).
    assert (Hl : length l = n) by (unfold l; rewrite map_length, seq_length; auto).
    assert (Hne : l <> []) by (intro E; rewrite E in Hl; simpl in Hl; lia).
    rewrite <- Hl in Hu.
    destruct (sortSwaths_picks k l Hne Hu) as (r & Hr & Hlr & Hp).
    assert (HP : Permutation l r).
    { destruct k as [| |s|o]; simpl in Hr.
      - injection Hr as <-; auto.
      - eapply snake_perm; eauto.
      - eapply spiral_perm; eauto.
      - simpl in Hu. eapply picks_perm; [exact Hu|]. split; auto. }
    rewrite Hl in *.
    exists (map (fun s : swath => Z.to_nat (sw_id s)) r). split.
    - transitivity (map (fun s : swath => Z.to_nat (sw_id s)) l).
      + apply Permutation_map. symmetry. auto.
      + unfold l. rewrite map_map.
        erewrite map_ext with (g := fun i => i); [rewrite map_id; auto|].
        intros; simpl. lia.
    - intros i Hi. destruct (Hp i Hi) as [Hlt E].
      rewrite (nth_error_nth' l (mkSwath P W (Z.of_nat 0) [] w_zero true MAINLAND)) in E by lia.
      unfold l in E. rewrite (map_nth (fun i => mkSwath P W (Z.of_nat i) [] w_zero true MAINLAND)) in E.
      rewrite seq_nth in E by auto. simpl in E.
      rewrite (nth_indep _ 0 (Z.to_nat (sw_id (mkSwath P W 0 [] w_zero true MAINLAND))))
        by (rewrite map_length; lia).
      rewrite (map_nth (fun s : swath => Z.to_nat (sw_id s))).
      erewrite nth_error_nth by exact E. simpl. lia.
  Qed.

  Lemma gen_perm k l v r :
    genSortedSwaths w_nonpos w_zero p_default p_lt wkt sort_fn k l v = Ok r ->
    exists l', Permutation l l' /\ Forall2 (same_swath wkt) l' r.
  Proof.
    unfold genSortedSwaths. destruct (swaths_clone w_nonpos w_zero wkt l) as [c| | |] eqn:Ec; try discriminate.
    cbn [bind]. destruct (sort_stage l c Ec) as (s & HP & HS & HF).
    assert (Hlen : length c = length l).
    { apply mapM_ok in Ec. apply Forall2_length in Ec. auto. }
    destruct c as [|c0 c'].
    { intro H. injection H as <-. destruct l; [|discriminate]. exists []; auto. }
    set (c := c0 :: c') in *.
    destruct (changeStartPoint _ v) as [l1| | |] eqn:E1; try discriminate. cbn [bind].
    destruct (sortSwaths w_zero k l1) as [l2| | |] eqn:E2; try discriminate. cbn [bind].
    intro H. injection H as <-.
    apply swath_lt_head in E1.
    set (m0 := if N.testbit v 0 then rev s else s).
    assert (HPm : Permutation l m0).
    { unfold m0. destruct (N.testbit v 0); auto. eapply perm_trans; eauto. apply Permutation_rev. }
    assert (HF1 : Forall2 (same_swath wkt) m0 l1).
    { assert (HF0 : Forall2 (same_swath wkt) m0
               (if N.testbit v 0 then rev (swaths_sort p_default p_lt sort_fn c)
                else swaths_sort p_default p_lt sort_fn c)).
      { unfold m0. destruct (N.testbit v 0); auto. clear - HF. induction HF; simpl; auto.
        apply Forall2_app; auto. }
      exact (Forall2_upto _ _ _ _ HF0 E1). }
    assert (Hne : l1 <> []).
    { intro E. subst l1. apply Forall2_length in HF1. apply Permutation_length in HPm. simpl in *. lia. }
    assert (HP2 : Permutation l1 l2).
    { pose proof (sortSwaths_usable _ _ _ Hne E2) as Hu.
      destruct k as [| |sz|o]; simpl in E2.
      - injection E2 as <-; auto.
      - eapply snake_perm; eauto.
      - eapply spiral_perm; eauto.
      - destruct (custom_spec w_zero o l1 Hne) as (_ & _ & _ & H4).
        destruct (H4 Hu) as (r & Hr & Hp). rewrite E2 in Hr. injection Hr as <-.
        eapply picks_perm; eauto. }
    destruct (Forall2_Permutation_r _ _ _ _ HF1 HP2) as (l' & HPl & HFl).
    exists l'. split; [eapply perm_trans; eauto|].
    exact (Forall2_upto _ _ _ _ HFl (reverseDirOdd_upto l2)).
  Qed.

  (** When it succeeds. *)
  Lemma gen_success k l v :
    (exists r, genSortedSwaths w_nonpos w_zero p_default p_lt wkt sort_fn k l v = Ok r)
    <-> (Forall (fun s => w_nonpos (sw_width s) = false) l /\ (l = [] \/ order_usable k (length l))).
  Proof.
    split.
    - intros [r H]. unfold genSortedSwaths in H.
      destruct (swaths_clone w_nonpos w_zero wkt l) as [c| | |] eqn:Ec; try discriminate.
      cbn [bind] in H. split.
      + apply mapM_ok in Ec. clear H. induction Ec; constructor; auto.
        apply swath_clone_ok in H. tauto.
      + destruct (sort_stage l c Ec) as (s & HP & HS & HF).
        assert (Hlen : length c = length l).
        { apply mapM_ok in Ec. apply Forall2_length in Ec. auto. }
        destruct c as [|c0 c'].
        { left. destruct l; [auto|discriminate]. }
        right. set (c := c0 :: c') in *.
        destruct (changeStartPoint _ v) as [l1| | |] eqn:E1; try discriminate. cbn [bind] in H.
        destruct (sortSwaths w_zero k l1) as [l2| | |] eqn:E2; try discriminate.
        apply swath_lt_head in E1. apply Forall2_length in E1.
        assert (Hl1 : length l1 = length l).
        { rewrite <- E1. destruct (N.testbit v 0); rewrite ?rev_length;
            rewrite <- (Forall2_length HF); symmetry; apply Permutation_length; auto. }
        rewrite <- Hl1. eapply sortSwaths_usable; eauto.
        intro E; subst l1. simpl in *; lia.
    - intros [Hw Hu]. unfold genSortedSwaths.
      assert (Ec : exists c, swaths_clone w_nonpos w_zero wkt l = Ok c).
      { clear Hu. induction Hw; simpl; [unfold swaths_clone; simpl; eauto|].
        unfold swaths_clone in *. simpl. rewrite swath_clone_def, H. simpl.
        destruct IHHw as [c ->]. simpl. eauto. }
      destruct Ec as [c Ec]. rewrite Ec. cbn [bind].
      destruct (sort_stage l c Ec) as (s & HP & HS & HF).
      assert (Hlen : length c = length l).
      { apply mapM_ok in Ec. apply Forall2_length in Ec. auto. }
      destruct c as [|c0 c']; [eauto|]. set (c := c0 :: c') in *.
      assert (Hls : length (swaths_sort p_default p_lt sort_fn c) = length l).
      { rewrite <- (Forall2_length HF). symmetry. apply Permutation_length; auto. }
      destruct (changeStartPoint (swaths_sort p_default p_lt sort_fn c) v) as [l1| | |] eqn:E1.
      2-4: exfalso; unfold changeStartPoint, swaths_reverse in E1;
           set (q := swaths_sort p_default p_lt sort_fn c) in *;
           destruct (N.testbit v 1); try discriminate;
           assert (Hq : length (if N.testbit v 0 then rev q else q) = length l)
             by (destruct (N.testbit v 0); rewrite ?rev_length; auto);
           destruct (if N.testbit v 0 then rev q else q) as [|x q'];
           [simpl in *; lia|discriminate E1].
      cbn [bind]. apply swath_lt_head in E1. apply Forall2_length in E1.
      assert (Hl1 : length l1 = length l).
      { rewrite <- E1. destruct (N.testbit v 0); rewrite ?rev_length; auto. }
      destruct (sortSwaths_picks k l1) as (r & Hr & _).
      { intro E; subst l1; simpl in *; lia. }
      { rewrite Hl1. destruct Hu as [->|Hu]; auto. simpl in *; lia. }
      rewrite Hr. cbn [bind]. eauto.
  Qed.
End GenProof.
