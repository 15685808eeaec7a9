(** What the order of the swaths depends on (properties C290-C292). *)
From Coq Require Import List Arith ZArith Lia Bool Permutation Sorted.
From Verif Require Import Outcome ListAux Swath_Model Swath_Spec Swath_Proofs Swath_Proofs2 Swath_Proofs3 Swath_Props.
Import ListNotations.

(** The ends of a swath can be told apart: of the first and the last point exactly one is less
    than the other, after the text round trip [tr]. *)
Definition two_ended {P W} (lt : P -> P -> bool) (tr : P -> P) (s : swath P W) : Prop :=
  exists a b m, sw_path s = a :: m ++ [b] /\ lt (tr b) (tr a) = negb (lt (tr a) (tr b)).

(** [t] is [s], possibly drawn the other way round. *)
Definition redrawn {P W} (s t : swath P W) : Prop :=
  sw_id t = sw_id s /\ sw_width t = sw_width s /\
  ((sw_dir t = sw_dir s /\ sw_path t = sw_path s) \/ (sw_dir t = negb (sw_dir s) /\ sw_path t = rev (sw_path s))).

Lemma sorted_by_unique {A} (key : A -> Z) : forall a b : list A, Permutation a b -> NoDup (map key a) ->
  StronglySorted (fun x y => (key x <= key y)%Z) a -> StronglySorted (fun x y => (key x <= key y)%Z) b -> a = b.
Proof.
  induction a as [|x a IH]; intros b P D SA SB; [apply Permutation_nil in P; congruence|].
  destruct b as [|y b]; [symmetry in P; apply Permutation_nil in P; discriminate|].
  inversion SA as [|? ? SA1 SA2]; subst. inversion SB as [|? ? SB1 SB2]; subst. rewrite Forall_forall in SA2, SB2.
  inversion D as [|? ? D1 D2]; subst.
  assert (x = y) as ->.
  { assert (IX : In x (y :: b)) by (apply (Permutation_in _ P); now left).
    assert (IY : In y (x :: a)) by (apply (Permutation_in _ (Permutation_sym P)); now left).
    destruct IX as [->|IX]; [reflexivity|]. destruct IY as [->|IY]; [reflexivity|].
    pose proof (SA2 _ IY). pose proof (SB2 _ IX). elim D1. apply in_map_iff. exists y. split; [lia|exact IY]. }
  f_equal. apply IH; auto. eapply Permutation_cons_inv; exact P.
Qed.

Section Dep.
  Context {P W : Type}.
  Variables (w_nonpos : W -> bool) (w_zero : W) (p_default : P) (p_lt : P -> P -> bool) (wkt : P -> P).
  Notation swath := (swath P W).

  (** A swath as genSortedSwaths has it before sorting: cloned and turned. *)
  Let prep (s : swath) : outcome swath := do c <- swath_clone w_nonpos w_zero wkt s; Ok (swath_orient p_default p_lt c).

  Lemma prep_all l : mapM prep l = do c <- swaths_clone w_nonpos w_zero wkt l; Ok (map (swath_orient p_default p_lt) c).
  Proof.
    induction l as [|s l IH]; [reflexivity|]. unfold swaths_clone in *. cbn [mapM]. unfold prep at 1.
    destruct (swath_clone w_nonpos w_zero wkt s) as [c| | |]; [|reflexivity..]. cbn [bind]. rewrite IH.
    destruct (mapM (swath_clone w_nonpos w_zero wkt) l); reflexivity.
  Qed.
  Lemma prep_id s c : prep s = Ok c -> sw_id c = sw_id s.
  Proof.
    unfold prep, swath_clone, swath_new, swath_setWidth. destruct (w_nonpos (sw_width s)); [discriminate|]. cbn [bind]. intro H. injection H as <-.
    unfold swath_orient. destruct (p_lt _ _); reflexivity.
  Qed.
  Lemma prep_fails s : (exists c, prep s = Ok c) \/ prep s = Throw InvalidArgument.
  Proof.
    unfold prep, swath_clone, swath_new, swath_setWidth. destruct (w_nonpos (sw_width s)); [now right|]. left. cbn [bind]. now eexists.
  Qed.
  Lemma prep_all_fails l : (exists c, mapM prep l = Ok c) \/ mapM prep l = Throw InvalidArgument.
  Proof.
    induction l as [|s l IH]; [left; now exists []|]. cbn [mapM]. destruct (prep_fails s) as [[c ->]| ->]; [|now right]. cbn [bind].
    destruct IH as [[r ->]| ->]; [left; now eexists|now right].
  Qed.
  Lemma prep_perm l m : Permutation l m -> (exists a b, mapM prep l = Ok a /\ mapM prep m = Ok b /\ Permutation a b) \/
    (mapM prep l = Throw InvalidArgument /\ mapM prep m = Throw InvalidArgument).
  Proof.
    induction 1 as [|s l m H IH|s t l|l m n H1 IH1 H2 IH2].
    - left. now exists [], [].
    - cbn [mapM]. destruct (prep_fails s) as [[c ->]| ->]; [|now right]. cbn [bind].
      destruct IH as [(a & b & -> & -> & Q)|[-> ->]]; [|now right]. left. exists (c :: a), (c :: b). repeat split. now constructor.
    - cbn [mapM]. destruct (prep_fails s) as [[c ->]| ->], (prep_fails t) as [[d ->]| ->]; cbn [bind]; try (now right).
      destruct (prep_all_fails l) as [[a ->]| ->]; [|now right]. left. exists (d :: c :: a), (c :: d :: a). repeat split. constructor.
    - destruct IH1 as [(a & b & A & B & Q)|[A B]], IH2 as [(c & d & C & D & R)|[C D]]; rewrite B in C; try discriminate C.
      + injection C as <-. left. exists a, d. repeat split; auto. eapply Permutation_trans; eauto.
      + right. now split.
  Qed.

  Lemma gen_prep sort_fn k l v : genSortedSwaths w_nonpos w_zero p_default p_lt wkt sort_fn k l v =
    do c <- mapM prep l;
    match c with
    | [] => Ok []
    | _ => do l1 <- changeStartPoint (sort_fn c) v; do l2 <- sortSwaths w_zero k l1; Ok (swaths_reverseDirOddSwaths l2)
    end.
  Proof.
    rewrite prep_all. unfold genSortedSwaths. destruct (swaths_clone w_nonpos w_zero wkt l) as [c| | |]; [|reflexivity..]. cbn [bind].
    destruct c; reflexivity.
  Qed.

  Lemma sort_unique (s1 s2 : list swath -> list swath) a b : (forall l, std_sorted swath_lt l (s1 l)) -> (forall l, std_sorted swath_lt l (s2 l)) ->
    Permutation a b -> NoDup (map sw_id a) -> s1 a = s2 b.
  Proof.
    intros H1 H2 Q D. destruct (H1 a) as [P1 S1], (H2 b) as [P2 S2].
    assert (W1 : forall l : list swath, StronglySorted (fun x y => swath_lt y x = false) l -> StronglySorted (fun x y => (sw_id x <= sw_id y)%Z) l).
    { intros l. induction 1 as [|x l S IH F]; constructor; auto. eapply Forall_impl; [|exact F]. cbn. intros y L. unfold swath_lt in L. apply Z.ltb_ge in L. exact L. }
    apply (sorted_by_unique sw_id); auto.
    - exact (Permutation_trans (Permutation_sym P1) (Permutation_trans Q P2)).
    - eapply Permutation_NoDup; [|exact D]. now apply Permutation_map.
  Qed.

  Lemma gen_depends s1 s2 k v l m l' : (forall l, std_sorted swath_lt l (s1 l)) -> (forall l, std_sorted swath_lt l (s2 l)) ->
    NoDup (map sw_id l) -> Permutation l m -> Forall2 (fun s t => prep s = prep t) m l' ->
    genSortedSwaths w_nonpos w_zero p_default p_lt wkt s1 k l v = genSortedSwaths w_nonpos w_zero p_default p_lt wkt s2 k l' v.
  Proof.
    intros H1 H2 D Q F. rewrite !gen_prep.
    assert (E : mapM prep l' = mapM prep m).
    { clear Q. induction F as [|s t m' l'' E F IH]; [reflexivity|]. cbn [mapM]. now rewrite E, IH. }
    rewrite E. destruct (prep_perm l m Q) as [(a & b & A & B & R)|[-> ->]]; [|reflexivity]. rewrite A, B. cbn [bind].
    assert (N : NoDup (map sw_id a)).
    { replace (map sw_id a) with (map sw_id l); [exact D|]. clear - A. revert a A. induction l as [|s l IH]; intros a A; cbn [mapM] in A; [injection A as <-; reflexivity|].
      destruct (prep s) as [c| | |] eqn:C; try discriminate A. cbn [bind] in A. destruct (mapM prep l) as [r| | |]; try discriminate A. cbn [bind] in A.
      injection A as <-. cbn [map]. rewrite (prep_id _ _ C). f_equal. now apply IH. }
    rewrite (sort_unique s1 s2 a b H1 H2 R N). destruct a as [|x a], b as [|y b]; try reflexivity.
    - apply Permutation_nil in R. discriminate.
    - symmetry in R. apply Permutation_nil in R. discriminate.
  Qed.

  Lemma prep_redrawn (tr : P -> P) s t : (forall p, wkt (tr p) = wkt p) -> same_swath tr s t -> two_ended p_lt wkt s -> prep s = prep t.
  Proof.
    intros T (I & Wd & H) (a & b & m & PA & LT). unfold prep, swath_clone, swath_new, swath_setWidth. rewrite Wd, I. destruct (w_nonpos (sw_width s)); [reflexivity|]. cbn [bind].
    assert (MM : forall l, map wkt (map tr l) = map wkt l) by (intro l; rewrite map_map; apply map_ext; exact T).
    destruct H as [[Dd Pp]|[Dd Pp]]; rewrite Dd, Pp.
    - rewrite MM. reflexivity.
    - rewrite map_rev, MM, PA. f_equal. unfold swath_orient, swath_setCreationDir, swath_startPoint, swath_endPoint. cbn [sw_path sw_id sw_width sw_dir sw_type].
      rewrite rev_involutive. cbn [map]. rewrite map_app. cbn [map app]. rewrite app_comm_cons, rev_app_distr. cbn [rev app].
      rewrite LT. destruct (p_lt (wkt a) (wkt b)); cbn [negb]; unfold swath_reverse; cbn [sw_path sw_id sw_width sw_dir sw_type].
      + f_equal; [|now destruct (sw_dir s)]. cbn [rev]. now rewrite !rev_app_distr, rev_involutive.
      + f_equal. cbn [rev]. rewrite rev_app_distr. reflexivity.
  Qed.
End Dep.

(** C290: with distinct ids the driving order does not depend on the order in which the swaths
    are given, nor on how std::sort treats equivalent elements. *)
Theorem ordering_permuted :
  forall (P W : Type) (w_nonpos : W -> bool) (w_zero : W) (p_default : P)
    (p_lt : P -> P -> bool) (wkt : P -> P) (sort1 sort2 : list (swath P W) -> list (swath P W)),
  (forall l, std_sorted swath_lt l (sort1 l)) -> (forall l, std_sorted swath_lt l (sort2 l)) ->
  forall k l l' v, NoDup (map sw_id l) -> Permutation l l' ->
  genSortedSwaths w_nonpos w_zero p_default p_lt wkt sort1 k l v =
  genSortedSwaths w_nonpos w_zero p_default p_lt wkt sort2 k l' v.
Proof.
  intros P W wn wz pd lt wkt s1 s2 H1 H2 k l l' v D Q. apply (gen_depends _ _ _ _ _ s1 s2 k v l l' l' H1 H2 D Q).
  clear. induction l'; now constructor.
Qed.
Print Assumptions ordering_permuted.

(** C291: nor on the way round in which the swaths are drawn, if their ends can be told apart. *)
Theorem ordering_redrawn :
  forall (P W : Type) (w_nonpos : W -> bool) (w_zero : W) (p_default : P)
    (p_lt : P -> P -> bool) (wkt : P -> P) (sort1 sort2 : list (swath P W) -> list (swath P W)),
  (forall l, std_sorted swath_lt l (sort1 l)) -> (forall l, std_sorted swath_lt l (sort2 l)) ->
  forall k l m l' v, NoDup (map sw_id l) -> Forall (two_ended p_lt wkt) l -> Permutation l m -> Forall2 redrawn m l' ->
  genSortedSwaths w_nonpos w_zero p_default p_lt wkt sort1 k l v =
  genSortedSwaths w_nonpos w_zero p_default p_lt wkt sort2 k l' v.
Proof.
  intros P W wn wz pd lt wkt s1 s2 H1 H2 k l m l' v D T Q F. apply (gen_depends _ _ _ _ _ s1 s2 k v l m l' H1 H2 D Q).
  assert (T' : Forall (two_ended lt wkt) m) by (eapply Permutation_Forall; eauto). clear - F T'.
  induction F as [|s t m l' R F IH]; constructor; inversion T'; subst; auto.
  apply (prep_redrawn _ _ _ _ _ (fun p => p)); auto. unfold same_swath. rewrite map_id. exact R.
Qed.
Print Assumptions ordering_redrawn.

(** C292: ordering swaths that have been ordered before, in whatever way, gives the same as
    ordering the original swaths. *)
Theorem ordering_forgets :
  forall (P W : Type) (w_nonpos : W -> bool) (w_zero : W) (p_default : P)
    (p_lt : P -> P -> bool) (wkt : P -> P) (sort_fn : list (swath P W) -> list (swath P W)),
  (forall l, std_sorted swath_lt l (sort_fn l)) -> (forall p, wkt (wkt p) = wkt p) ->
  forall k k' l v v' r, NoDup (map sw_id l) -> Forall (two_ended p_lt wkt) l ->
  genSortedSwaths w_nonpos w_zero p_default p_lt wkt sort_fn k' l v' = Ok r ->
  genSortedSwaths w_nonpos w_zero p_default p_lt wkt sort_fn k r v =
  genSortedSwaths w_nonpos w_zero p_default p_lt wkt sort_fn k l v.
Proof.
  intros P W wn wz pd lt wkt s H1 ID k k' l v v' r D T G.
  destruct (ordering_permutes P W wn wz pd lt wkt s H1 k' l v' r G) as (m & Q & F). symmetry.
  apply (gen_depends _ _ _ _ _ s s k v l m r H1 H1 D Q).
  assert (T' : Forall (two_ended lt wkt) m) by (eapply Permutation_Forall; eauto). clear - F T' ID.
  induction F as [|s t m l' R F IH]; constructor; inversion T'; subst; auto.
  now apply (prep_redrawn _ _ _ _ _ wkt).
Qed.
Print Assumptions ordering_forgets.

(** Without distinct ids the order of the input shows: two swaths of two cells, both with number
    0, given in the two orders. *)
Theorem ordering_permuted_refuted : exists l l' : list (swath zpt Z), Permutation l l' /\
  exists r r', zgen Boustrophedon l 0 = Ok r /\ zgen Boustrophedon l' 0 = Ok r' /\ r <> r'.
Proof.
  exists [zsw 0 (0, 0)%Z (10, 0)%Z true; zsw 0 (0, 1)%Z (10, 1)%Z true], [zsw 0 (0, 1)%Z (10, 1)%Z true; zsw 0 (0, 0)%Z (10, 0)%Z true].
  split; [constructor|]. eexists _, _. split; [vm_compute; reflexivity|]. split; [vm_compute; reflexivity|]. discriminate.
Qed.
Print Assumptions ordering_permuted_refuted.

(** *** Examples *)
Lemma zline_ends n : Forall (two_ended zlt (fun p => p)) (zline n).
Proof.
  apply Forall_forall. intros s I. unfold zline in I. apply in_map_iff in I. destruct I as (i & <- & _).
  exists (0, Z.of_nat i)%Z, (10, Z.of_nat i)%Z, []. split; [reflexivity|]. unfold zlt. cbn [fst snd].
  change (10 <? 0)%Z with false. change (10 =? 0)%Z with false. reflexivity.
Qed.
Lemma zline_ids n : NoDup (map sw_id (zline n)).
Proof. unfold zline. rewrite map_map. cbn [zsw sw_id]. apply FinFun.Injective_map_NoDup; [intros a b; lia|apply seq_NoDup]. Qed.
Example ordering_permuted_ex : NoDup (map sw_id (zline 5)) /\ Permutation (zline 5) (rev (zline 5)) /\
  zgen (Spiral 4) (zline 5) 1 = zgen (Spiral 4) (rev (zline 5)) 1.
Proof. split; [apply zline_ids|]. split; [apply Permutation_rev|vm_compute; reflexivity]. Qed.
Example ordering_redrawn_ex : Forall (two_ended zlt (fun p => p)) (zline 5) /\
  Forall2 redrawn (zline 5) (map swath_reverse (zline 5)) /\ zgen Snake (zline 5) 2 = zgen Snake (map swath_reverse (zline 5)) 2.
Proof.
  split; [apply zline_ends|]. split; [|vm_compute; reflexivity].
  generalize (zline 5). intro l. induction l as [|s l IH]; cbn [map]; constructor; auto.
  split; [reflexivity|]. split; [reflexivity|]. right. now split.
Qed.
Example ordering_forgets_ex : exists r, zgen Snake (zline 6) 3 = Ok r /\ r <> zline 6 /\
  zgen (Spiral 4) r 0 = zgen (Spiral 4) (zline 6) 0.
Proof. eexists. split; [vm_compute; reflexivity|]. split; [discriminate|vm_compute; reflexivity]. Qed.
