(** Proofs about the sharing of lines. *)
From Coq Require Import List Arith ZArith Bool Lia Permutation.
From Verif Require Import Outcome ListAux Swath_Model Swath_Proofs Swath_Proofs2 Alias_Model Alias_Spec.
Import ListNotations.

Definition omap {A B} (f : A -> B) (o : outcome A) : outcome B := do a <- o; Ok (f a).

Lemma foldM_natural {A S T} (F : S -> T) (g : S -> A -> outcome S) (g' : T -> A -> outcome T) :
  forall l, (forall s a, In a l -> g' (F s) a = omap F (g s a)) ->
  forall s, foldM g' l (F s) = omap F (foldM g l s).
Proof.
  induction l; intros H s; cbn [foldM].
  - reflexivity.
  - rewrite H by (left; reflexivity). destruct (g s a); simpl; auto.
    apply IHl. intros; apply H; right; auto.
Qed.

Lemma std_rotate_map {A B} (F : A -> B) l a b c :
  std_rotate (map F l) a b c = omap (map F) (std_rotate l a b c).
Proof.
  unfold std_rotate. rewrite map_length.
  destruct ((a <=? b) && (b <=? c) && (c <=? length l)); simpl; auto.
  rewrite !skipn_map, !firstn_map, !map_app. reflexivity.
Qed.

Lemma std_reverse_map {A B} (F : A -> B) l a b :
  std_reverse (map F l) a b = omap (map F) (std_reverse l a b).
Proof.
  unfold std_reverse. rewrite map_length.
  destruct ((a <=? b) && (b <=? length l)); simpl; auto.
  rewrite !skipn_map, !firstn_map, !map_app, map_rev. reflexivity.
Qed.

Lemma vec_index_map {A B} (F : A -> B) l i : vec_index (map F l) i = omap F (vec_index l i).
Proof. unfold vec_index. rewrite nth_error_map. destruct (nth_error l i); reflexivity. Qed.

Lemma vec_at_map {A B} (F : A -> B) l i : vec_at (map F l) i = omap F (vec_at l i).
Proof. unfold vec_at. rewrite nth_error_map. destruct (nth_error l i); reflexivity. Qed.

Lemma vec_set_map {A B} (F : A -> B) l i a :
  vec_set (map F l) i (F a) = omap (map F) (vec_set l i a).
Proof.
  unfold vec_set. rewrite nth_error_map. destruct (nth_error l i); simpl; auto.
  rewrite map_app. cbn [map]. rewrite firstn_map.
  f_equal. f_equal. f_equal. clear. change (match map F l with [] => [] | _ :: l0 => skipn i l0 end) with (skipn (S i) (map F l)).
  change (match l with [] => [] | _ :: l0 => skipn i l0 end) with (skipn (S i) l).
  apply skipn_map.
Qed.

Section Map.
  Context {P Q W : Type}.
  Variable F : swath P W -> swath Q W.
  Variable w_zero : W.
  Hypothesis F_default : F (swath_default w_zero) = swath_default w_zero.

  Lemma snake_map l : snake_sortSwaths (map F l) = omap (map F) (snake_sortSwaths l).
  Proof.
    unfold snake_sortSwaths. rewrite map_length.
    rewrite (foldM_natural (map F) (fun acc i => std_rotate acc i (i + 1) (length acc))
              (fun acc i => std_rotate acc i (i + 1) (length acc))).
    2:{ intros s a _. rewrite map_length. apply std_rotate_map. }
    destruct (foldM _ _ l); simpl; auto.
    rewrite map_length, std_reverse_map. destruct (std_reverse _ _ _); simpl; auto.
    destruct (_ =? 1); simpl; auto. rewrite map_length. apply std_rotate_map.
  Qed.

  Lemma spiral_loop_map : forall fuel l o s j,
    spiral_loop fuel (map F l) o s j = omap (map F) (spiral_loop fuel l o s j).
  Proof.
    induction fuel; intros; simpl; destruct (j <? s); simpl; auto.
    rewrite std_rotate_map. destruct (std_rotate _ _ _ _); simpl; auto.
  Qed.

  Lemma spiral_map n l : spiral_sortSwaths n (map F l) = omap (map F) (spiral_sortSwaths n l).
  Proof.
    unfold spiral_sortSwaths. destruct (n =? 0); simpl; auto. rewrite map_length.
    rewrite (foldM_natural (map F) (fun acc i => spiral acc (i * n) n)
              (fun acc i => spiral acc (i * n) n)).
    2:{ intros s a _. apply spiral_loop_map. }
    destruct (foldM _ _ l); simpl; auto.
    destruct (1 <? _); simpl; auto. apply spiral_loop_map.
  Qed.

  Lemma custom_map o l :
    custom_sortSwaths w_zero o (map F l) = omap (map F) (custom_sortSwaths w_zero o l).
  Proof.
    unfold custom_sortSwaths.
    assert (C : custom_check o (map F l) = custom_check o l).
    { unfold custom_check. rewrite map_length. reflexivity. }
    rewrite C. destruct (custom_check o l); simpl; auto.
    rewrite map_length.
    replace (repeat (swath_default w_zero) (length l))
      with (map F (repeat (swath_default w_zero) (length l))).
    2:{ generalize (length l). induction n; simpl; congruence. }
    apply foldM_natural. intros s [i j] _. simpl. rewrite vec_index_map.
    destruct (vec_index l j); simpl; auto. apply vec_set_map.
  Qed.

  Lemma sortSwaths_map k l :
    sortSwaths w_zero k (map F l) = omap (map F) (sortSwaths w_zero k l).
  Proof.
    destruct k; cbn [sortSwaths].
    - reflexivity.
    - apply snake_map.
    - apply spiral_map.
    - apply custom_map.
  Qed.
End Map.
