(** Proofs about the geometry containers. *)
From Coq Require Import List Arith Lia Bool Reals Lra.
From Verif Require Import Outcome Num ListAux Point_Model Swath_Model Container_Model Container_Spec.
Import ListNotations.
Local Open Scope nat_scope.

Section Generic.
  Variable N : Num.
  Notation P := (point N).

  (** The effect of iteration on one point. *)
  Definition back (f : P -> P) (p : P) : P := if p_ne N p (f p) then f p else p.

  Definition set_ok (set : line N -> nat -> P -> outcome (line N)) : Prop :=
    forall l i p, i < length l -> set l i p = vec_set l i p.

  Lemma line_set_ok : set_ok (line_setGeometry N).
  Proof. intros l i p H; unfold line_setGeometry; now rewrite (proj2 (Nat.ltb_lt _ _) H). Qed.
  Lemma mpoint_set_ok : set_ok (mpoint_setGeometry N).
  Proof. intros l i p H; reflexivity. Qed.

  Lemma at_mid {A} (l : list A) a r : vec_at (l ++ a :: r) (length l) = Ok a.
  Proof. unfold vec_at. rewrite nth_error_app2, Nat.sub_diag by lia; reflexivity. Qed.

  Lemma vec_set_mid {A} (l : list A) a r b : vec_set (l ++ a :: r) (length l) b = Ok (l ++ b :: r).
  Proof.
    unfold vec_set. rewrite nth_error_app2, Nat.sub_diag by lia; cbn [nth_error].
    rewrite firstn_app, Nat.sub_diag, firstn_all, firstn_O, app_nil_r.
    replace (skipn (S (length l)) (l ++ a :: r)) with r; auto.
    rewrite skipn_app. replace (S (length l) - length l) with 1 by lia.
    rewrite skipn_all2 by lia. reflexivity.
  Qed.

  Lemma range_for_map set f : set_ok set -> forall rest done fuel child,
    length rest < fuel ->
    range_for N fuel set f (length done + length rest) (mkIter N (done ++ rest) (length done) child true)
    = Ok (done ++ map (back f) rest).
  Proof.
    intros OK rest; induction rest as [|p rest IH]; intros done fuel child F; (destruct fuel as [|fuel]; [cbn [length] in F; lia|]);
      cbn [range_for it_pos].
    - rewrite (proj2 (Nat.eqb_eq _ _)) by (cbn [length]; lia). cbn. now rewrite !app_nil_r.
    - rewrite (proj2 (Nat.eqb_neq _ _)) by (cbn [length]; lia).
      unfold it_deref. unfold it_update at 1; cbn [it_checked bind it_self it_pos].
      unfold line_getGeometry; rewrite at_mid; cbn [bind it_self it_pos it_child it_checked].
      unfold it_next, it_update; cbn [it_checked bind it_self it_pos it_child].
      unfold line_getGeometry; rewrite at_mid; cbn [bind].
      assert (E : (if p_ne N p (f p) then set (done ++ p :: rest) (length done) (f p) else Ok (done ++ p :: rest))
                  = Ok ((done ++ [back f p]) ++ rest)).
      { unfold back. rewrite <- app_assoc. cbn [app]. destruct (p_ne N p (f p)); auto.
        rewrite OK by (rewrite app_length; cbn [length]; lia). apply vec_set_mid. }
      rewrite E; cbn [bind it_self it_pos it_child it_checked].
      replace (S (length done)) with (length (done ++ [back f p])) by (rewrite app_length; cbn [length]; lia).
      replace (length done + length (p :: rest)) with (length (done ++ [back f p]) + length rest)
        by (rewrite app_length; cbn [length]; lia).
      rewrite IH by (cbn [length] in F; lia). rewrite <- app_assoc; reflexivity.
  Qed.

  Lemma for_points_map set f l : set_ok set -> for_points N set f l = Ok (map (back f) l).
  Proof. intros OK; unfold for_points. exact (range_for_map set f OK l [] (S (length l)) (p_default N) (le_n _)). Qed.
End Generic.

(** Loops over parts. *)
Lemma for_parts_mutate {A} (isEmpty : A -> bool) (f : A -> outcome A) (g : A -> A) (l : list A) :
  (forall a, In a l -> f a = Ok (g a)) ->
  for_parts isEmpty (h_mutate f) l = Ok (if forallb isEmpty l then l else map g l).
Proof.
  intros F; unfold for_parts, coll_size. destruct (forallb isEmpty l); [reflexivity|].
  enough (G : forall rest done, (forall a, In a rest -> f a = Ok (g a)) ->
    foldM (fun self i => do st <- h_mutate f (View i, self); Ok (snd st)) (seq (length done) (length rest)) (done ++ rest)
    = Ok (done ++ map g rest)) by exact (G l [] F).
  induction rest as [|a rest IH]; intros done H; [reflexivity|].
  cbn [length seq foldM]. unfold h_mutate at 1; cbn [fst snd].
  unfold vec_index. rewrite nth_error_app2, Nat.sub_diag by lia; cbn [nth_error bind].
  rewrite H by (now left); cbn [bind]. rewrite vec_set_mid; cbn [bind snd].
  replace (S (length done)) with (length (done ++ [g a])) by (rewrite app_length; cbn [length]; lia).
  replace (done ++ g a :: rest) with ((done ++ [g a]) ++ rest) by (rewrite <- app_assoc; reflexivity).
  rewrite IH by (intros; apply H; now right). now rewrite <- app_assoc.
Qed.

Lemma for_parts_assign {A} (isEmpty : A -> bool) (g : A -> outcome A) (l : list A) :
  (for_parts isEmpty (h_assign g) l = Ok l) \/
  (exists a, In a l /\ (forall b, g a <> Ok b) /\
    for_parts isEmpty (h_assign g) l = match g a with Ok _ => Hang | Throw e => Throw e | UB => UB | Hang => Hang end).
Proof.
  unfold for_parts.
  assert (L : coll_size isEmpty l <= length l) by (unfold coll_size; destruct (forallb isEmpty l); lia).
  enough (G : forall k s, s + k <= length l ->
    let o := foldM (fun self i => do st <- h_assign g (View i, self); Ok (snd st)) (seq s k) l in
    o = Ok l \/ exists a, In a l /\ (forall b, g a <> Ok b) /\
      o = match g a with Ok _ => Hang | Throw e => Throw e | UB => UB | Hang => Hang end) by exact (G _ 0 L).
  induction k as [|k IH]; intros s H; cbn [seq foldM]; [now left|].
  destruct (nth_error l s) as [a|] eqn:E; [|apply nth_error_None in E; lia].
  assert (St : h_assign g (View s, l) = do b <- g a; Ok (Own b, l)).
  { unfold h_assign; cbn [fst snd h_read]. unfold vec_index. rewrite E. reflexivity. }
  rewrite St. pose proof (nth_error_In _ _ E) as I.
  destruct (g a) as [b|e| |] eqn:Ga; cbn [bind snd].
  - apply (IH (S s)); lia.
  - right; exists a; rewrite Ga; repeat split; auto; discriminate.
  - right; exists a; rewrite Ga; repeat split; auto; discriminate.
  - right; exists a; rewrite Ga; repeat split; auto; discriminate.
Qed.

(** setGeometry. *)
Section Set_.
  Context {A : Type}.
  Variable isEmpty : A -> bool.
  Variable nrm : A -> A.
  Let add (l : list A) (a : A) := l ++ [nrm a].

  Lemma coll_pad_repeat dflt : forall k l, coll_pad add dflt k l = l ++ repeat (nrm dflt) k.
  Proof.
    induction k as [|k IH]; intros l; cbn [coll_pad repeat]; [now rewrite app_nil_r|].
    rewrite IH; unfold add. now rewrite <- app_assoc.
  Qed.

  Lemma set_loop i a (l : list A) : forallb isEmpty l = false -> forall k s acc, s + k <= length l ->
    foldM (fun acc j => do g <- (if i =? j then Ok a else coll_getGeometry isEmpty l j); Ok (add acc g)) (seq s k) acc
    = Ok (acc ++ map (fun j => nrm (if i =? j then a else nth j l a)) (seq s k)).
  Proof.
    intros E; induction k as [|k IH]; intros s acc H; cbn [seq foldM map]; [now rewrite app_nil_r|].
    assert (G : (if i =? s then Ok a else coll_getGeometry isEmpty l s) = Ok (if i =? s then a else nth s l a)).
    { destruct (i =? s); auto. unfold coll_getGeometry, coll_size. rewrite E.
      rewrite (proj2 (Nat.leb_gt _ _)) by lia. unfold vec_index.
      rewrite (nth_error_nth' l a) by lia. reflexivity. }
    rewrite G; cbn [bind]. rewrite IH by lia. unfold add. now rewrite <- app_assoc.
  Qed.

  Lemma coll_set_updated dflt l i a : (l = [] \/ forallb isEmpty l = false) -> (forall x, In x l -> nrm x = x) ->
    exists r, coll_setGeometry isEmpty add dflt l i a = Ok r /\ updated (nrm dflt) l i (nrm a) r.
  Proof.
    intros E Nx; unfold coll_setGeometry.
    assert (S_ : coll_size isEmpty l = length l).
    { unfold coll_size; destruct E as [->|E]; [reflexivity|now rewrite E]. }
    rewrite S_. destruct (i <? length l) eqn:L.
    - apply Nat.ltb_lt in L. destruct E as [->|E]; [cbn [length] in L; lia|].
      rewrite set_loop by (auto; lia). cbn [app]. eexists; split; [reflexivity|].
      assert (NT : forall j, j < length l -> nth_error (map (fun j => nrm (if i =? j then a else nth j l a)) (seq 0 (length l))) j
                   = Some (nrm (if i =? j then a else nth j l a))).
      { intros j J. rewrite nth_error_map. rewrite (nth_error_nth' (seq 0 (length l)) 0) by (rewrite seq_length; lia).
        rewrite seq_nth by lia. reflexivity. }
      repeat split.
      + rewrite map_length, seq_length; lia.
      + rewrite NT, Nat.eqb_refl by lia; reflexivity.
      + intros j J1 J2. rewrite NT by lia. rewrite (proj2 (Nat.eqb_neq _ _)) by lia.
        rewrite (nth_error_nth' l a) by lia. rewrite Nx; auto. apply nth_In; lia.
      + intros j J; lia.
    - apply Nat.ltb_ge in L. rewrite coll_pad_repeat. unfold add at 1. eexists; split; [reflexivity|].
      repeat split.
      + rewrite !app_length, repeat_length; cbn [length]; lia.
      + rewrite nth_error_app2 by (rewrite app_length, repeat_length; lia).
        rewrite app_length, repeat_length. replace (i - (length l + (i - length l))) with 0 by lia. reflexivity.
      + intros j J1 J2. rewrite <- app_assoc, nth_error_app1 by lia. reflexivity.
      + intros j J. rewrite nth_error_app1 by (rewrite app_length, repeat_length; lia).
        rewrite nth_error_app2 by lia.
        assert (H : forall n k (x : A), k < n -> nth_error (repeat x n) k = Some x).
        { induction n; intros [|k] x Hk; cbn; auto; try lia. apply IHn; lia. }
        apply H; lia.
  Qed.
End Set_.

(** Images. *)
Lemma fold_snoc {A B} (f : A -> B) : forall (l : list A) acc, fold_left (fun r x => r ++ [f x]) l acc = acc ++ map f l.
Proof.
  induction l as [|a l IH]; intros acc; cbn [fold_left map]; [now rewrite app_nil_r|].
  rewrite IH, <- app_assoc; reflexivity.
Qed.
Lemma line_image_map N (f : point N -> point N) l : line_image N f l = map f l.
Proof. unfold line_image; now rewrite fold_snoc. Qed.

Lemma firstn_coll {A} (isEmpty : A -> bool) (l : list A) :
  firstn (coll_size isEmpty l) l = if forallb isEmpty l then [] else l.
Proof. unfold coll_size; destruct (forallb isEmpty l); [reflexivity|apply firstn_all]. Qed.

(** Real points. *)
Open Scope R_scope.
Lemma p_ne_close (p q : pt) : (p_ne RNum p q = true /\ ~ close p q) \/ (p_ne RNum p q = false /\ close p q).
Proof.
  assert (E : forall x : R, Rltb (Rabs x) (p_eps RNum) = true <-> Rabs x < / 10000000).
  { intros x; rewrite Rltb_true. unfold p_eps. change (ndiv RNum (nofZ RNum 1) (nofZ RNum 10000000)) with (1 / 10000000)%R.
    replace (1 / 10000000) with (/ 10000000) by field. reflexivity. }
  assert (B : p_eq RNum p q = true <-> close p q).
  { unfold p_eq, close. rewrite !andb_true_iff.
    change (nltb RNum (nabs RNum (nsub RNum (px p) (px q))) (p_eps RNum)) with (Rltb (Rabs (px p - px q)) (p_eps RNum)).
    change (nltb RNum (nabs RNum (nsub RNum (py p) (py q))) (p_eps RNum)) with (Rltb (Rabs (py p - py q)) (p_eps RNum)).
    change (nltb RNum (nabs RNum (nsub RNum (pz p) (pz q))) (p_eps RNum)) with (Rltb (Rabs (pz p - pz q)) (p_eps RNum)).
    rewrite !E. tauto. }
  unfold p_ne. destruct (p_eq RNum p q) eqn:Q.
  - right; split; [reflexivity|now apply B].
  - left; split; [reflexivity|]. intros C; apply B in C; discriminate.
Qed.

Lemma back_image (im : pt -> pt -> Prop) (f : pt -> pt) (p : pt) : im p (f p) -> moved_unless_close im p (back RNum f p).
Proof.
  intros I; unfold back. destruct (p_ne_close p (f p)) as [[-> C]|[-> C]]; [left; split; auto|right; split; auto]. now exists (f p).
Qed.

Lemma map_Forall2 {A B} (R : A -> B -> Prop) (f : A -> B) : forall l, (forall x, In x l -> R x (f x)) -> Forall2 R l (map f l).
Proof. induction l as [|a l IH]; cbn; intros H; constructor; auto. Qed.
