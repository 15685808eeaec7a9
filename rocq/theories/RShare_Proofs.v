(** Proofs about routes that share their connections: the functions on one route. *)
From Coq Require Import List Arith Bool Lia.
From Verif Require Import Outcome ListAux Swath_Model Route_Model Parts_Model Parts_Spec Parts_Proofs
  Holder_Proofs Holder_Proofs2 RShare_Model RShare_Spec.
Import ListNotations.
Local Open Scope nat_scope.

Section Fns.
  Context {P W : Type}.
  Variable w_nonpos : W -> bool.
  Variable w_zero : W.
  Variable wkt : P -> P.
  Variables grow fit : nat -> nat.
  Notation heap := (list (list P)).
  Notation hroute := (hroute P W).
  Notation deref := (@RShare_Model.deref P).

  Lemma rderef_new (h : heap) c : deref (h ++ [c]) (length h) = c.
  Proof. unfold RShare_Model.deref. rewrite app_nth2, Nat.sub_diag by lia. reflexivity. Qed.
  Lemma rderef_old (h h2 : heap) a : a < length h -> deref (h ++ h2) a = deref h a.
  Proof. intro H. apply app_nth1; exact H. Qed.
  Lemma rderef_assign (h : heap) a c b : a < length h -> deref (assign h a c) b = if b =? a then c else deref h b.
  Proof.
    intro H. unfold RShare_Model.deref. rewrite assign_nth. apply Nat.ltb_lt in H. rewrite H, andb_true_r. reflexivity.
  Qed.
  Lemma assign_self (h : heap) a : a < length h -> assign h a (deref h a) = h.
  Proof.
    intro H. apply nth_ext_error. intro i. destruct (Nat.eq_dec i a) as [->|N].
    - rewrite assign_same by exact H. unfold RShare_Model.deref. symmetry. apply nth_error_nth'. exact H.
    - apply assign_other. auto.
  Qed.
  Lemma assign_twice {B} (l : list B) x b c : assign (assign l x b) x c = assign l x c.
  Proof. revert x. induction l; intros [|x]; simpl; auto. rewrite IHl. reflexivity. Qed.

  Lemma vec_back_snoc {B} (l : list B) b : vec_back (l ++ [b]) = Ok b.
  Proof. unfold vec_back. rewrite rev_unit. reflexivity. Qed.
  Lemma upd_back_snoc {B} (f : B -> B) l b : upd_back f (l ++ [b]) = Ok (l ++ [f b]).
  Proof. unfold upd_back. rewrite rev_unit, rev_involutive. reflexivity. Qed.

  (** addConnection() leaves a last connection. *)
  Lemma addConnection_ends (h : heap) (r : hroute) :
    exists c0 a, hr_conns (snd (h_addConnection grow h r)) = c0 ++ [a].
  Proof.
    unfold h_addConnection. destruct (length (hr_conns r) <=? length (hr_swaths r)) eqn:E.
    - cbn. eauto.
    - apply Nat.leb_gt in E. cbn [snd]. destruct (hr_conns r) as [|x l] eqn:El using rev_ind; [simpl in E; lia|eauto].
  Qed.
  (** When the route ends with a connection. *)
  Lemma addConnection_open (h : heap) (r : hroute) : length (hr_swaths r) < length (hr_conns r) -> h_addConnection grow h r = (h, r).
  Proof. intro H. unfold h_addConnection. destruct (_ <=? _) eqn:E; auto. apply Nat.leb_le in E. lia. Qed.
  Lemma addConnection_opens (h : heap) (r : hroute) : length (hr_swaths r) <= length (hr_conns r) ->
    length (hr_swaths (snd (h_addConnection grow h r))) < length (hr_conns (snd (h_addConnection grow h r))).
  Proof.
    intro H. unfold h_addConnection. destruct (_ <=? _) eqn:E; cbn.
    - rewrite app_length. simpl. lia.
    - apply Nat.leb_gt in E. exact E.
  Qed.

  (** The addresses of a route are of the heap, and it has enough connections. *)
  Definition rwf (h : heap) (r : hroute) : Prop :=
    Forall (fun a => a < length h) (hr_conns r) /\ length (hr_swaths r) <= length (hr_conns r).

  Lemma Forall_lt_ext n m l : n <= m -> Forall (fun a => a < n) l -> Forall (fun a => a < m) l.
  Proof. intros H F. eapply Forall_impl; [|exact F]. simpl. intros; lia. Qed.
  Lemma rwf_ext (h h' : heap) r : length h <= length h' -> rwf h r -> rwf h' r.
  Proof. intros H [A B]. split; auto. eapply Forall_lt_ext; eauto. Qed.

  Lemma addConnection_rwf h r : rwf h r -> rwf (fst (h_addConnection grow h r)) (snd (h_addConnection grow h r)).
  Proof.
    intros [A B]. unfold h_addConnection. destruct (_ <=? _) eqn:E; [|split; auto].
    split; cbn.
    - rewrite app_length. simpl. apply Forall_app. split; [eapply Forall_lt_ext; [|exact A]; lia|constructor; [lia|constructor]].
    - rewrite app_length. simpl. lia.
  Qed.

  (** Adding the points [l] at once: to the last connection after addConnection(). *)
  Definition h_append (h : heap) (r : hroute) (l : list P) : heap * hroute :=
    let (h1, r1) := h_addConnection grow h r in
    let a := last (hr_conns r1) 0 in
    (assign h1 a (deref h1 a ++ l), r1).

  Lemma last_snoc {B} (l : list B) b d : last (l ++ [b]) d = b.
  Proof. apply last_last. Qed.

  Lemma last_lt h r : rwf h r -> last (hr_conns (snd (h_addConnection grow h r))) 0 < length (fst (h_addConnection grow h r)).
  Proof.
    intro R. destruct (addConnection_ends h r) as (c0 & a & E). pose proof (addConnection_rwf h r R) as [F _].
    rewrite E in *. rewrite last_snoc. apply Forall_app in F. destruct F as [_ F]. inversion F; auto.
  Qed.

  Lemma append_heap_length h r l : length (fst (h_append h r l)) = length (fst (h_addConnection grow h r)).
  Proof. unfold h_append. destruct (h_addConnection grow h r). cbn. apply assign_length. Qed.
  Lemma append_rwf h r l : rwf h r -> rwf (fst (h_append h r l)) (snd (h_append h r l)).
  Proof.
    intro R. apply (rwf_ext (fst (h_addConnection grow h r))); [rewrite append_heap_length; auto|].
    unfold h_append. pose proof (addConnection_rwf h r R) as Q. destruct (h_addConnection grow h r). exact Q.
  Qed.

  Lemma append_nil h r : rwf h r -> h_append h r [] = h_addConnection grow h r.
  Proof.
    intro R. pose proof (last_lt h r R) as L. unfold h_append. destruct (h_addConnection grow h r) as [h1 r1]. cbn [fst snd] in L.
    rewrite app_nil_r, assign_self by exact L. reflexivity.
  Qed.

  Lemma append_append h r l l2 : rwf h r ->
    h_append (fst (h_append h r l)) (snd (h_append h r l)) l2 = h_append h r (l ++ l2).
  Proof.
    intro R. pose proof (last_lt h r R) as L. pose proof (addConnection_opens h r (proj2 R)) as O.
    unfold h_append. destruct (h_addConnection grow h r) as [h1 r1]. cbn [fst snd] in *.
    rewrite addConnection_open by exact O. rewrite rderef_assign, Nat.eqb_refl by exact L.
    rewrite assign_twice, app_assoc. reflexivity.
  Qed.

  Lemma point_append h r p : h_addConnection_point grow (h, r) p = Ok (h_append h r [p]).
  Proof.
    unfold h_addConnection_point, h_append. cbn [fst snd]. destruct (addConnection_ends h r) as (c0 & a & E).
    destruct (h_addConnection grow h r) as [h1 r1]. cbn [snd] in E. rewrite E, vec_back_snoc, last_snoc. reflexivity.
  Qed.

  Lemma vec_append_from h r l l0 : rwf h r ->
    foldM (h_addConnection_point grow) l (h_append h r l0) = Ok (h_append h r (l0 ++ l)).
  Proof.
    intro R. revert l0. induction l as [|p l IH]; intro l0; cbn [foldM]; [rewrite app_nil_r; reflexivity|].
    rewrite (surjective_pairing (h_append h r l0)), point_append, append_append by exact R. cbn [bind].
    rewrite IH, <- app_assoc. reflexivity.
  Qed.
  Lemma vec_append h r l : rwf h r -> h_addConnection_vec grow h r l = Ok (h_append h r l).
  Proof.
    intro R. unfold h_addConnection_vec. destruct l as [|p l]; cbn [length Nat.ltb Nat.leb foldM].
    - rewrite append_nil by exact R. reflexivity.
    - rewrite point_append. cbn [bind]. apply (vec_append_from h r l [p] R).
  Qed.

  (** While points are added, the first ones of every object stay. *)
  Lemma append_prefix h r l b : rwf h r -> b < length h -> exists l2, deref (fst (h_append h r l)) b = deref h b ++ l2.
  Proof.
    intros R Hb. pose proof (last_lt h r R) as L. unfold h_append.
    assert (D : deref (fst (h_addConnection grow h r)) b = deref h b).
    { unfold h_addConnection. destruct (_ <=? _); cbn; auto. apply rderef_old; exact Hb. }
    destruct (h_addConnection grow h r) as [h1 r1]. cbn [fst snd] in *.
    rewrite rderef_assign by exact L. destruct (b =? _) eqn:E; [|exists []; rewrite app_nil_r; exact D].
    apply Nat.eqb_eq in E. subst b. rewrite D. eauto.
  Qed.

  Lemma points_append_from h r b n k : rwf h r -> b < length h -> k + n = length (deref h b) ->
    foldM (fun hr k => do p <- vec_at (deref (fst hr) b) k; h_addConnection_point grow hr p)
      (seq k n) (h_append h r (firstn k (deref h b))) = Ok (h_append h r (deref h b)).
  Proof.
    intros R Hb. revert k. induction n as [|n IH]; intros k E; cbn [seq foldM].
    - rewrite firstn_all2 by lia. reflexivity.
    - destruct (append_prefix h r (firstn k (deref h b)) b R Hb) as [l2 D]. rewrite D. unfold vec_at at 1.
      rewrite nth_error_app1 by lia. destruct (nth_error (deref h b) k) as [p|] eqn:Ep; [|apply nth_error_None in Ep; lia].
      cbn [bind]. rewrite (surjective_pairing (h_append h r _)), point_append, append_append by exact R. cbn [bind].
      assert (F : firstn k (deref h b) ++ [p] = firstn (S k) (deref h b)).
      { clear -Ep. revert k Ep. induction (deref h b) as [|x l IH]; intros [|k] H; simpl in *; try discriminate; [congruence|].
        f_equal. apply IH; exact H. }
      rewrite F. apply IH. lia.
  Qed.
  Lemma points_append h r b : rwf h r -> b < length h -> h_addConnection_points grow h r b = Ok (h_append h r (deref h b)).
  Proof.
    intros R Hb. unfold h_addConnection_points. destruct (length (deref h b)) as [|n] eqn:E; cbn [Nat.ltb Nat.leb seq foldM].
    - apply length_zero_iff_nil in E. rewrite E, append_nil by exact R. reflexivity.
    - cbn [fst]. unfold vec_at at 1. destruct (deref h b) as [|p l] eqn:D; [discriminate|]. cbn [nth_error bind].
      rewrite point_append. cbn [bind]. pose proof (points_append_from h r b n 1 R Hb) as Q. rewrite D in Q. apply Q.
      rewrite E. reflexivity.
  Qed.

  (** The same on values. *)
  Definition r_append (r : route P W) (l : list P) : route P W :=
    let r1 := r_addConnection r in
    mkRoute (r_swaths r1) (removelast (r_conns r1) ++ [last (r_conns r1) [] ++ l]).

  Lemma r_ends (r : route P W) : exists c0 x, r_conns (r_addConnection r) = c0 ++ [x].
  Proof.
    unfold r_addConnection, r_sizeConnections, r_sizeVectorSwaths. destruct (_ <=? _) eqn:E; cbn; eauto.
    apply Nat.leb_gt in E. destruct (r_conns r) as [|x l] using rev_ind; [simpl in E; lia|eauto].
  Qed.
  Lemma r_opens (r : route P W) : length (r_swaths r) <= length (r_conns r) ->
    length (r_swaths (r_addConnection r)) < length (r_conns (r_addConnection r)).
  Proof.
    intro H. unfold r_addConnection, r_sizeConnections, r_sizeVectorSwaths. destruct (_ <=? _) eqn:E; cbn.
    - rewrite app_length. simpl. lia.
    - apply Nat.leb_gt in E. exact E.
  Qed.
  Lemma r_open (r : route P W) : length (r_swaths r) < length (r_conns r) -> r_addConnection r = r.
  Proof.
    intro H. unfold r_addConnection, r_sizeConnections, r_sizeVectorSwaths. destruct (_ <=? _) eqn:E; auto.
    apply Nat.leb_le in E. lia.
  Qed.
  Lemma r_append_nil r : r_append r [] = r_addConnection r.
  Proof.
    unfold r_append. destruct (r_ends r) as (c0 & x & E). rewrite E, removelast_last, last_last, app_nil_r, <- E.
    destruct (r_addConnection r); reflexivity.
  Qed.
  Lemma r_append_append r l l2 : length (r_swaths r) <= length (r_conns r) -> r_append (r_append r l) l2 = r_append r (l ++ l2).
  Proof.
    intro H. pose proof (r_opens r H) as O. unfold r_append at 1.
    rewrite (r_open (r_append r l)).
    - unfold r_append. cbn [r_swaths r_conns]. rewrite removelast_last, last_last, app_assoc. reflexivity.
    - unfold r_append. destruct (r_ends r) as (c0 & x & E). cbn [r_swaths r_conns].
      rewrite E, removelast_last, last_last. rewrite E in O. rewrite app_length in *. simpl in *. lia.
  Qed.
  Lemma r_point_append r p : r_addConnection_point r p = Ok (r_append r [p]).
  Proof.
    unfold r_addConnection_point, r_append. destruct (r_ends r) as (c0 & x & E).
    rewrite E, upd_back_snoc, removelast_last, last_last. reflexivity.
  Qed.
  Lemma r_points_append r l : length (r_swaths r) <= length (r_conns r) -> r_addConnection_points r l = Ok (r_append r l).
  Proof.
    intro H. unfold r_addConnection_points.
    assert (F : forall m l0, foldM r_addConnection_point m (r_append r l0) = Ok (r_append r (l0 ++ m))).
    { induction m as [|p m IH]; intro l0; cbn [foldM]; [rewrite app_nil_r; reflexivity|].
      rewrite r_point_append, r_append_append by exact H. cbn [bind]. rewrite IH, <- app_assoc. reflexivity. }
    destruct l as [|p l]; cbn [length Nat.ltb Nat.leb foldM].
    - rewrite r_append_nil. reflexivity.
    - rewrite r_point_append. cbn [bind]. apply (F l [p]).
  Qed.

  (** From the heap to values. *)
  Lemma hr_value_ext (h h' : heap) (r : hroute) : (forall a, In a (hr_conns r) -> deref h' a = deref h a) -> hr_value h' r = hr_value h r.
  Proof. intro H. unfold hr_value. f_equal. apply map_ext_in. exact H. Qed.

  Lemma addConnection_value h r : rwf h r ->
    hr_value (fst (h_addConnection grow h r)) (snd (h_addConnection grow h r)) = r_addConnection (hr_value h r).
  Proof.
    intros [F _]. unfold h_addConnection, r_addConnection, r_sizeConnections, r_sizeVectorSwaths. cbn [hr_value r_swaths r_conns].
    rewrite map_length. destruct (_ <=? _); cbn [fst snd h_emplace]; auto.
    unfold hr_value. cbn [hr_swaths hr_conns]. f_equal. rewrite map_app. cbn [map]. rewrite rderef_new. f_equal.
    apply map_ext_in. intros a Ha. apply rderef_old. rewrite Forall_forall in F. auto.
  Qed.

  (** The last connection is not one of the others. *)
  Definition last_alone (r : hroute) : Prop :=
    forall i a, nth_error (hr_conns r) i = Some a -> a = last (hr_conns r) 0 -> S i = length (hr_conns r).

  Lemma append_value h r l : rwf h r -> (l <> [] -> length (hr_swaths r) < length (hr_conns r) -> last_alone r) ->
    hr_value (fst (h_append h r l)) (snd (h_append h r l)) = r_append (hr_value h r) l.
  Proof.
    intros R A. destruct l as [|p0 l0] eqn:El.
    { rewrite append_nil, r_append_nil by exact R. apply addConnection_value; exact R. }
    rewrite <- El in *. assert (N : l <> []) by (subst; discriminate). clear El p0 l0. specialize (A N).
    assert (A1 : last_alone (snd (h_addConnection grow h r))).
    { unfold h_addConnection. destruct (_ <=? _) eqn:E; cbn [snd h_emplace].
      - intros i a. cbn [hr_conns]. rewrite last_snoc. intros Hi ->. rewrite app_length. simpl.
        destruct (le_lt_dec (length (hr_conns r)) i) as [G|G].
        + assert (i < length (hr_conns r ++ [length h])) by (apply nth_error_Some; congruence).
          rewrite app_length in H. simpl in H. lia.
        + rewrite nth_error_app1 in Hi by exact G. destruct R as [F _]. rewrite Forall_forall in F.
          apply nth_error_In in Hi. apply F in Hi. lia.
      - apply A. apply Nat.leb_gt in E. exact E. }
    pose proof (addConnection_value h r R) as V. pose proof (last_lt h r R) as L. destruct (addConnection_ends h r) as (c0 & a & E).
    unfold h_append, r_append. rewrite <- V. destruct (h_addConnection grow h r) as [h1 r1]. cbn [fst snd] in *.
    unfold last_alone in A1. rewrite E in *. rewrite last_snoc in *. unfold hr_value. cbn [r_swaths r_conns]. f_equal.
    rewrite E, !map_app. cbn [map]. rewrite removelast_last, last_last. f_equal.
    - apply map_ext_in. intros b Hb. rewrite rderef_assign by exact L. destruct (b =? a) eqn:Eb; auto.
      apply Nat.eqb_eq in Eb. subst b. apply In_nth_error in Hb. destruct Hb as [i Hi].
      assert (G : i < length c0) by (apply nth_error_Some; congruence).
      assert (Q : nth_error (c0 ++ [a]) i = Some a) by (rewrite nth_error_app1; auto).
      specialize (A1 i a Q eq_refl). rewrite app_length in A1. simpl in A1. lia.
    - rewrite rderef_assign, Nat.eqb_refl by exact L. reflexivity.
  Qed.
End Fns.
