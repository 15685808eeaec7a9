(** Facts about lists used by several proof files (no model content). *)
From Coq Require Import List Arith Lia Bool Permutation.
From Verif Require Import Outcome.
Import ListNotations.

Lemma nth_error_firstn_lt {A} : forall n (l : list A) i,
  i < n -> nth_error (firstn n l) i = nth_error l i.
Proof.
  induction n; intros l i H; [lia|].
  destruct l; simpl; [destruct i; auto|]. destruct i; simpl; auto. apply IHn; lia.
Qed.

Lemma nth_error_firstn_ge {A} : forall n (l : list A) i,
  n <= i -> nth_error (firstn n l) i = None.
Proof.
  intros. apply nth_error_None. rewrite firstn_length. lia.
Qed.

Lemma nth_error_skipn' {A} : forall n (l : list A) i,
  nth_error (skipn n l) i = nth_error l (n + i).
Proof.
  induction n; intros; simpl; auto. destruct l; simpl; auto. destruct i; auto.
Qed.

Lemma nth_error_rev_lt {A} : forall (l : list A) i,
  i < length l -> nth_error (rev l) i = nth_error l (length l - 1 - i).
Proof.
  induction l; intros i H; simpl in *; [lia|].
  destruct (Nat.eq_dec i (length l)) as [->|Hn].
  - rewrite nth_error_app2 by (rewrite rev_length; lia).
    rewrite rev_length, Nat.sub_diag. replace (length l - 0 - length l) with 0 by lia. reflexivity.
  - rewrite nth_error_app1 by (rewrite rev_length; lia).
    rewrite IHl by lia. replace (length l - 0 - i) with (S (length l - 1 - i)) by lia. reflexivity.
Qed.

Lemma nth_error_ext {A} : forall (l l' : list A),
  (forall i, nth_error l i = nth_error l' i) -> l = l'.
Proof.
  induction l; intros [|b l'] H; auto.
  - specialize (H 0); discriminate.
  - specialize (H 0); discriminate.
  - f_equal.
    + specialize (H 0). simpl in H. congruence.
    + apply IHl. intro i. apply (H (S i)).
Qed.

Lemma Forall2_nth_error {A B} (R : A -> B -> Prop) : forall l l',
  Forall2 R l l' <->
  length l = length l' /\
  forall i a b, nth_error l i = Some a -> nth_error l' i = Some b -> R a b.
Proof.
  split.
  - induction 1; split; simpl; auto.
    + intros i a b Ha; destruct i; discriminate.
    + destruct IHForall2; auto.
    + intros [|i] a b Ha Hb; simpl in *.
      * congruence.
      * destruct IHForall2 as [_ IH]. eauto.
  - revert l'. induction l; intros [|b l'] [Hl H]; simpl in *; try lia; constructor.
    + apply (H 0); reflexivity.
    + apply IHl. split; [lia|]. intros i x y Hx Hy. apply (H (S i)); auto.
Qed.

Lemma mapM_ok {A B} (f : A -> outcome B) : forall l r,
  mapM f l = Ok r -> Forall2 (fun a b => f a = Ok b) l r.
Proof.
  induction l; simpl; intros r H.
  - injection H as <-. constructor.
  - destruct (f a) eqn:E; simpl in H; try discriminate.
    destruct (mapM f l) eqn:E2; simpl in H; try discriminate.
    injection H as <-. constructor; auto.
Qed.

Lemma mapM_all_ok {A B} (f : A -> outcome B) (g : A -> B) : forall l,
  (forall a, In a l -> f a = Ok (g a)) -> mapM f l = Ok (map g l).
Proof.
  induction l; simpl; intros H; auto.
  rewrite H by auto. simpl. rewrite IHl by auto. reflexivity.
Qed.

Lemma foldM_app {A S} (f : S -> A -> outcome S) : forall l1 l2 s,
  foldM f (l1 ++ l2) s = bind (foldM f l1 s) (foldM f l2).
Proof.
  induction l1; simpl; intros; auto.
  destruct (f s a); simpl; auto.
Qed.

Lemma foldM_ind {A S} (f : S -> A -> outcome S) (I : S -> Prop) : forall l s s',
  (forall s a s', In a l -> I s -> f s a = Ok s' -> I s') ->
  I s -> foldM f l s = Ok s' -> I s'.
Proof.
  induction l; simpl; intros s s' H Hs E.
  - injection E as <-; auto.
  - destruct (f s a) eqn:E1; simpl in E; try discriminate.
    eapply IHl; [intros; eapply H; [right|..]; eassumption| |eassumption].
    eapply H; [left; reflexivity|..]; eassumption.
Qed.

(** Positions [p 0, ..., p (n-1)] of [l] give [r]. *)
Definition picks {A} (p : nat -> nat) (l r : list A) : Prop :=
  length r = length l /\
  forall i, i < length l -> p i < length l /\ nth_error r i = nth_error l (p i).

Lemma picks_refl {A} (l : list A) : picks (fun i => i) l l.
Proof. split; auto. Qed.

Lemma picks_trans {A} (p q : nat -> nat) (l1 l2 l3 : list A) :
  picks p l1 l2 -> picks q l2 l3 -> picks (fun i => p (q i)) l1 l3.
Proof.
  intros [L1 H1] [L2 H2]. split; [lia|]. intros i Hi.
  destruct (H2 i) as [Ha Hb]; [lia|]. destruct (H1 (q i)) as [Hc Hd]; [lia|].
  split; auto. congruence.
Qed.

Lemma picks_ext {A} (p q : nat -> nat) (l r : list A) :
  (forall i, i < length l -> p i = q i) -> picks p l r -> picks q l r.
Proof.
  intros E [L H]. split; auto. intros i Hi. rewrite <- E by auto. auto.
Qed.

Lemma picks_fun {A} p (l r r' : list A) : picks p l r -> picks p l r' -> r = r'.
Proof.
  intros [L H] [L' H']. apply nth_error_ext. intro i.
  destruct (lt_dec i (length l)) as [Hi|Hi].
  - destruct (H i Hi), (H' i Hi). congruence.
  - transitivity (@None A); [|symmetry]; apply nth_error_None; lia.
Qed.

Lemma firstn_skipn_split3 {A} (l : list A) a b c :
  a <= b -> b <= c -> c <= length l ->
  l = firstn a l ++ firstn (b - a) (skipn a l) ++ firstn (c - b) (skipn b l) ++ skipn c l.
Proof.
  intros. apply nth_error_ext. intro i.
  destruct (lt_dec i a).
  { rewrite nth_error_app1 by (rewrite firstn_length; lia).
    rewrite nth_error_firstn_lt; auto. }
  rewrite nth_error_app2 by (rewrite firstn_length; lia).
  rewrite firstn_length. replace (Nat.min a (length l)) with a by lia.
  destruct (lt_dec i b).
  { rewrite nth_error_app1 by (rewrite firstn_length, skipn_length; lia).
    rewrite nth_error_firstn_lt by lia. rewrite nth_error_skipn'. f_equal; lia. }
  rewrite nth_error_app2 by (rewrite firstn_length, skipn_length; lia).
  rewrite firstn_length, skipn_length.
  replace (Nat.min (b - a) (length l - a)) with (b - a) by lia.
  destruct (lt_dec i c).
  { rewrite nth_error_app1 by (rewrite firstn_length, skipn_length; lia).
    rewrite nth_error_firstn_lt by lia. rewrite nth_error_skipn'. f_equal; lia. }
  rewrite nth_error_app2 by (rewrite firstn_length, skipn_length; lia).
  rewrite firstn_length, skipn_length.
  replace (Nat.min (c - b) (length l - b)) with (c - b) by lia.
  rewrite nth_error_skipn'. f_equal; lia.
Qed.

Lemma vec_set_ok {A} (l r : list A) i a :
  vec_set l i a = Ok r ->
  length r = length l /\ i < length l /\ nth_error r i = Some a /\
  forall j, j <> i -> nth_error r j = nth_error l j.
Proof.
  unfold vec_set. destruct (nth_error l i) eqn:E; try discriminate.
  intro H. assert (Hr : r = firstn i l ++ a :: skipn (S i) l) by congruence.
  subst r. clear H.
  assert (Hi : i < length l) by (apply nth_error_Some; congruence).
  repeat split; auto.
  - rewrite app_length, firstn_length. change (length (a :: skipn (S i) l)) with (S (length (skipn (S i) l))). rewrite skipn_length. lia.
  - rewrite nth_error_app2 by (rewrite firstn_length; lia).
    rewrite firstn_length. replace (i - Nat.min i (length l)) with 0 by lia. reflexivity.
  - intros j Hj. destruct (lt_dec j i).
    + rewrite nth_error_app1 by (rewrite firstn_length; lia). apply nth_error_firstn_lt; auto.
    + rewrite nth_error_app2 by (rewrite firstn_length; lia).
      rewrite firstn_length. replace (Nat.min i (length l)) with i by lia.
      destruct (j - i) as [|k] eqn:Ek; [lia|].
      change (nth_error (skipn (S i) l) k = nth_error l j).
      rewrite nth_error_skipn'. f_equal; lia.
Qed.

Lemma Forall2_length {A B} (R : A -> B -> Prop) (l : list A) (l' : list B) :
  Forall2 R l l' -> length l = length l'.
Proof. induction 1; simpl; auto. Qed.
Arguments Forall2_length {A B R l l'} _.

Lemma NoDup_app_intro {A} (l l' : list A) :
  NoDup l -> NoDup l' -> (forall x, In x l -> ~ In x l') -> NoDup (l ++ l').
Proof.
  induction l as [|a l IH]; simpl; intros H1 H2 H; auto.
  inversion H1; subst. constructor.
  - rewrite in_app_iff. intros [Hx|Hx]; auto. apply (H a); auto.
  - apply IH; auto.
Qed.
