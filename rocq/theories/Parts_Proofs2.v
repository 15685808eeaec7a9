(** Lifetimes of parts: proofs.  *)
From Coq Require Import List Arith Bool Lia.
From Verif Require Import Outcome ListAux Graph_Proofs4 Container_Model Alias_Spec Parts_Model Parts_Spec Parts_Proofs.
Import ListNotations.
Local Open Scope nat_scope.

Lemma replaced_nth {B} (l : list B) i b j : i < length l ->
  nth_error (replaced l i b) j = if j =? i then Some b else nth_error l j.
Proof.
  intro H. rewrite <- assign_replaced by auto. destruct (Nat.eqb_spec j i) as [->|E].
  - apply assign_same; auto.
  - apply assign_other; auto.
Qed.
Lemma replaced_length {B} (l : list B) i b : i < length l -> length (replaced l i b) = length l.
Proof. intro H. rewrite <- assign_replaced by auto. apply assign_length. Qed.

Section P.
  Context {A : Type}.
  Variable isEmpty : A -> bool.
  Variable dflt : A.
  Variable put : A -> A.
  Variable wkt : A -> A.
  Notation step := (@step A isEmpty dflt put wkt).
  Notation run := (@run A isEmpty dflt put wkt).
  Notation state := (@state A).

  Lemma read_alive (st : state) a i c v : sound st -> nth_error (parts_of st a) i = Some (c, v) ->
    In a (st_coll st) -> read_ref st (Borrow c) = Ok v.
  Proof.
    intros S0 H Ha. unfold read_ref, at_address. destruct (find _ _) as [[c' v']|] eqn:F.
    - apply find_some in F as [F E]. simpl in E. apply Nat.eqb_eq in E. subst c'.
      apply in_flat_map in F as (a' & _ & F). apply In_nth_error in F as [i' F].
      destruct (s_uniq _ S0 _ _ _ _ _ _ _ H F) as [<- <-]. rewrite H in F. inversion F. reflexivity.
    - exfalso. apply find_none with (x := (c, v)) in F.
      + simpl in F. rewrite Nat.eqb_refl in F. discriminate.
      + apply in_flat_map. exists a. split; auto. eapply nth_error_In; eauto.
  Qed.
  Lemma read_dead (st : state) a i c v : sound st -> nth_error (parts_of st a) i = Some (c, v) ->
    ~ In a (st_coll st) -> read_ref st (Borrow c) = UB.
  Proof.
    intros S0 H Ha. unfold read_ref, at_address. destruct (find _ _) as [[c' v']|] eqn:F; auto.
    apply find_some in F as [F E]. simpl in E. apply Nat.eqb_eq in E. subst c'.
    apply in_flat_map in F as (a' & Ha' & F). apply In_nth_error in F as [i' F].
    destruct (s_uniq _ S0 _ _ _ _ _ _ _ H F) as [<- _]. contradiction.
  Qed.

  Lemma kept (st : state) o st' a i c v : sound st -> step st o = Ok st' -> imports o = false ->
    nth_error (parts_of st a) i = Some (c, v) -> exists v', nth_error (parts_of st' a) i = Some (c, v').
  Proof.
    intros S0 H I N. pose proof (kids_lt _ _ _ _ N) as La. fold (kids_at (st_heap st) a) in *.
    assert (NC : forall x l, exists v', nth_error (parts_of (new_coll st x l) a) i = Some (c, v')).
    { intros x l. exists v. unfold parts_of, new_coll; simpl.
      change (nth a ?h []) with (kids_at h a). rewrite kids_snoc.
      destruct (Nat.eqb_spec a (length (st_heap st))); [lia|]. exact N. }
    assert (GR : forall b l, b < length (st_heap st) ->
      exists v', nth_error (parts_of (grow st b l) a) i = Some (c, v')).
    { intros b l Hb. exists v. unfold parts_of, grow; simpl.
      change (nth a ?h []) with (kids_at h a). rewrite kids_assign by auto.
      destruct (Nat.eqb_spec a b) as [<-|E]; [|exact N].
      rewrite nth_error_app1; [exact N|]. apply nth_error_Some. intro Q. unfold parts_of, kids_at in *. congruence. }
    destruct o; simpl in I; try discriminate; simpl in H; boks H.
    - inversion H; subst; auto.
    - inversion H; subst; exists v; exact N.
    - inversion H; subst; auto.
    - inversion H; subst. apply GR. apply var_ok in E. eapply s_coll; eauto.
    - destruct (_ <? _); boks H; inversion H; subst; auto.
      apply GR. apply var_ok in E. eapply s_coll; eauto.
    - inversion H; subst; exists v; exact N.
    - inversion H; subst; exists v; exact N.
    - destruct (find _ _) as [k|]; inversion H; subst; exists v; exact N.
    - inversion H; subst; exists v; exact N.
    - inversion H; subst; exists v; exact N.
    - inversion H; subst; exists v; exact N.
    - unfold write_ref in H. boks H. inversion H; subst. destruct r as [b|d].
      + exists v; exact N.
      + unfold parts_of; simpl. change (nth a ?h []) with (kids_at h a). rewrite kids_write.
        exists (if c =? d then f r0 else v). apply write_nth. exists v. auto.
  Qed.

  Lemma kept_run ops : forall st st' a i c v, sound st -> run ops st = Ok st' ->
    forallb (fun o => negb (imports o)) ops = true ->
    nth_error (parts_of st a) i = Some (c, v) -> exists v', nth_error (parts_of st' a) i = Some (c, v').
  Proof.
    induction ops as [|o ops IH]; intros st st' a i c v S0 H I N; unfold Parts_Model.run in *; cbn [foldM] in H.
    - inversion H; subst. eauto.
    - bok H. simpl in I. apply andb_prop in I as [I1 I2]. apply negb_true_iff in I1.
      destruct (kept _ _ _ _ _ _ _ S0 E I1 N) as [v1 N1].
      eapply (IH r); [eapply sound_step; eauto | exact H | exact I2 | exact N1].
  Qed.

  Lemma part_kept (st : state) o st' p : step st o = Ok st' -> sets_part p o = false ->
    nth_error (st_part st') p = nth_error (st_part st) p.
  Proof.
    intros H I. destruct o; simpl in I; simpl in H; boks H; try (inversion H; subst; reflexivity);
      try (apply Nat.eqb_neq in I).
    - destruct (_ <? _); boks H; inversion H; subst; reflexivity.
    - inversion H; subst; simpl. rewrite assign_other; auto.
    - inversion H; subst; simpl. rewrite assign_other; auto.
    - destruct (find _ _) as [k|]; inversion H; subst; simpl; rewrite assign_other; auto.
    - inversion H; subst; simpl. rewrite assign_other; auto.
    - inversion H; subst; simpl. rewrite assign_other; auto.
    - inversion H; subst; simpl. rewrite assign_other; auto.
    - unfold write_ref in H. boks H. inversion H; subst. destruct r; reflexivity.
  Qed.
  Lemma part_kept_run ops : forall st st' p, run ops st = Ok st' ->
    forallb (fun o => negb (sets_part p o)) ops = true ->
    nth_error (st_part st') p = nth_error (st_part st) p.
  Proof.
    induction ops as [|o ops IH]; intros st st' p H I; unfold Parts_Model.run in *; cbn [foldM] in H.
    - inversion H; subst. eauto.
    - bok H. simpl in I. apply andb_prop in I as [I1 I2]. apply negb_true_iff in I1.
      rewrite (IH _ _ _ H I2). eapply part_kept; eauto.
  Qed.

  Lemma coll_kept (st : state) o st' x : step st o = Ok st' -> sets_coll x o = false ->
    nth_error (st_coll st') x = nth_error (st_coll st) x.
  Proof.
    intros H I. destruct o; simpl in I; simpl in H; boks H; try (inversion H; subst; reflexivity);
      try (apply Nat.eqb_neq in I).
    - inversion H; subst; simpl. rewrite assign_other; auto.
    - inversion H; subst; simpl. rewrite assign_other; auto.
    - inversion H; subst; simpl. rewrite assign_other; auto.
    - destruct (_ <? _); boks H; inversion H; subst; simpl; auto. rewrite assign_other; auto.
    - destruct (find _ _) as [k|]; inversion H; subst; reflexivity.
    - unfold write_ref in H. boks H. inversion H; subst. destruct r; reflexivity.
  Qed.
  Lemma coll_kept_run ops : forall st st' x, run ops st = Ok st' ->
    forallb (fun o => negb (sets_coll x o)) ops = true ->
    nth_error (st_coll st') x = nth_error (st_coll st) x.
  Proof.
    induction ops as [|o ops IH]; intros st st' p H I; unfold Parts_Model.run in *; cbn [foldM] in H.
    - inversion H; subst. eauto.
    - bok H. simpl in I. apply andb_prop in I as [I1 I2]. apply negb_true_iff in I1.
      rewrite (IH _ _ _ H I2). eapply coll_kept; eauto.
  Qed.

  (** What getGeometry(i, part) and getCellWherePoint give. *)
  Lemma ref_part (st : state) x i p st' : step st (RefPart x i p) = Ok st' ->
    exists a c v, nth_error (st_coll st) x = Some a /\ nth_error (parts_of st a) i = Some (c, v) /\
      nth_error (st_part st') p = Some (Borrow c) /\ st_heap st' = st_heap st /\ st_coll st' = st_coll st.
  Proof.
    intro H. simpl in H. boks H. inversion H; subst; simpl.
    unfold borrow in E1. destruct (_ <=? _); try discriminate. boks E1. inversion E1; subst.
    unfold vec_index in E2. destruct (nth_error _ _) as [[c v]|] eqn:N; inversion E2; subst.
    exists r, c, v. repeat split; auto.
    - apply var_ok; auto.
    - apply assign_same. eapply var_lt; eauto.
  Qed.
  Lemma where_part (st : state) x f p st' : step st (WherePart x f p) = Ok st' ->
    (exists a i c v, nth_error (st_coll st) x = Some a /\ nth_error (parts_of st a) i = Some (c, v) /\
      f v = true /\ (forall j d w, j < i -> nth_error (parts_of st a) j = Some (d, w) -> f w = false) /\
      nth_error (st_part st') p = Some (Borrow c) /\ st_heap st' = st_heap st /\ st_coll st' = st_coll st)
    \/ (exists b, nth_error (st_part st') p = Some (Own b) /\ nth_error (st_solo st') b = Some dflt).
  Proof.
    intro H. simpl in H. boks H. destruct (find _ _) as [[c v]|] eqn:F; inversion H; subst; simpl.
    - left. exists r.
      assert (G : forall (l : list (nat * A)) n, find (fun k => f (snd k)) (firstn n l) = Some (c, v) ->
        exists i, nth_error l i = Some (c, v) /\ f v = true /\
          forall j d w, j < i -> nth_error l j = Some (d, w) -> f w = false).
      { induction l as [|[d w] l IH]; intros [|n] G; simpl in G; try discriminate.
        destruct (f w) eqn:Fw.
        - inversion G; subst. exists 0. repeat split; auto. intros j e u Hj. lia.
        - destruct (IH n G) as (i & N & Fv & L). exists (S i). repeat split; auto.
          intros [|j] e u Hj Nj; simpl in Nj; [inversion Nj; subst; auto | eapply L; eauto; lia]. }
      destruct (G _ _ F) as (i & N & Fv & L). exists i, c, v. repeat split; auto.
      + apply var_ok; auto.
      + apply assign_same. eapply var_lt; eauto.
    - right. exists (length (st_solo st)). split.
      + apply assign_same. eapply var_lt; eauto.
      + rewrite nth_error_app2, Nat.sub_diag by lia. reflexivity.
  Qed.

  (** The parts a program takes by value. *)
  Definition owned (st : state) : Prop := forall p r, nth_error (st_part st) p = Some r -> exists b, r = Own b.

  Lemma read_owned (st : state) p r : sound st -> owned st -> nth_error (st_part st) p = Some r -> exists v, read_ref st r = Ok v.
  Proof.
    intros S0 O H. destruct (O _ _ H) as [b ->]. apply (s_own _ S0) in H. simpl. unfold vec_index.
    destruct (nth_error (st_solo st) b) eqn:E; eauto. apply nth_error_None in E. lia.
  Qed.

  Lemma size_le (l : list A) : coll_size isEmpty l <= length l.
  Proof. unfold coll_size. destruct (forallb _ _); lia. Qed.
  Lemma size_pos (l : list A) i : i < coll_size isEmpty l -> coll_size isEmpty l = length l.
  Proof. unfold coll_size. destruct (forallb _ _); lia. Qed.
  Lemma get_ok (l : list A) i : coll_getGeometry isEmpty l i =
    if i <? coll_size isEmpty l then vec_at l i else Throw OutOfRange.
  Proof.
    unfold coll_getGeometry, vec_index, vec_at. destruct (Nat.leb_spec (coll_size isEmpty l) i) as [L|L];
      destruct (Nat.ltb_spec i (coll_size isEmpty l)); try lia; auto.
    pose proof (size_le l). destruct (nth_error l i) eqn:E; auto. apply nth_error_None in E. lia.
  Qed.

  Lemma set_loop (l : list A) i v : i < coll_size isEmpty l -> forall k s acc, s + k <= coll_size isEmpty l ->
    foldM (fun acc j => do g <- (if i =? j then Ok v else coll_getGeometry isEmpty l j); Ok (acc ++ [put g]))
      (seq s k) acc = Ok (acc ++ map put (firstn k (skipn s (replaced l i v)))).
  Proof.
    intros Hi. pose proof (size_pos _ _ Hi) as Sz. induction k; intros s acc Hs; cbn [seq foldM].
    - simpl. rewrite app_nil_r. reflexivity.
    - assert (G : (if i =? s then Ok v else coll_getGeometry isEmpty l s) = vec_at (replaced l i v) s).
      { unfold vec_at. rewrite replaced_nth by lia. rewrite Nat.eqb_sym.
        destruct (Nat.eqb_spec s i); auto. rewrite get_ok. destruct (Nat.ltb_spec s (coll_size isEmpty l)); auto. lia. }
      rewrite G. unfold vec_at. destruct (nth_error (replaced l i v) s) as [g|] eqn:N.
      + cbn [bind]. rewrite IHk by lia. f_equal. rewrite <- app_assoc. f_equal.
        clear - N. revert N. generalize (replaced l i v). intro m. revert s. induction m; intros [|s] N; simpl in *; try discriminate.
        * inversion N; reflexivity.
        * apply IHm; auto.
      + apply nth_error_None in N. rewrite replaced_length in N by lia. lia.
  Qed.
  Lemma set_values (l : list A) i v : i < coll_size isEmpty l ->
    foldM (fun acc j => do g <- (if i =? j then Ok v else coll_getGeometry isEmpty l j); Ok (acc ++ [put g]))
      (seq 0 (coll_size isEmpty l)) [] = Ok (map put (replaced l i v)).
  Proof.
    intro H. rewrite (set_loop l i v H) by lia. simpl. rewrite firstn_all2; auto.
    pose proof (size_pos _ _ H). rewrite replaced_length; lia.
  Qed.

  Lemma owned_step (st : state) o : sound st -> owned st -> borrows o = false ->
    match step st o with Ok st' => owned st' | UB => False | Hang => False | Throw _ => True end.
  Proof.
    intros S0 O I.
    assert (NP : forall p v, owned (new_part st p v)).
    { intros p v q r H. simpl in H. apply assign_case in H as [(_ & -> & _)|(_ & H)]; eauto. }
    assert (V : forall B (l : list B) x, match var l x with Ok b => nth_error l x = Some b | Throw _ => True | _ => False end).
    { intros B l x. unfold var, vec_at. destruct (nth_error l x); auto. }
    destruct o; simpl in I; try discriminate; simpl.
    - pose proof (V _ (st_coll st) x) as Vx. destruct (var _ x); auto.
    - pose proof (V _ (st_coll st) x) as Vx. destruct (var _ x); auto. simpl.
      pose proof (V _ (st_coll st) y) as Vy. destruct (var _ y); auto.
    - pose proof (V _ (st_coll st) x) as Vx. destruct (var _ x); auto. simpl.
      pose proof (V _ (st_coll st) y) as Vy. destruct (var _ y); auto.
    - pose proof (V _ (st_coll st) x) as Vx. destruct (var _ x); auto.
    - pose proof (V _ (st_coll st) x) as Vx. destruct (var _ x); auto. simpl.
      pose proof (V _ (st_part st) p) as Vp. destruct (var _ p); auto. simpl.
      destruct (read_owned _ _ _ S0 O Vp) as [v ->]. simpl. exact O.
    - pose proof (V _ (st_coll st) x) as Vx. destruct (var _ x); auto. cbn [bind].
      pose proof (V _ (st_part st) p) as Vp. destruct (var _ p); auto. cbn [bind].
      destruct (read_owned _ _ _ S0 O Vp) as [v ->].
      destruct (Nat.ltb_spec i (coll_size isEmpty (map snd (parts_of st a)))).
      + rewrite set_values by auto. simpl. exact O.
      + simpl. exact O.
    - pose proof (V _ (st_coll st) x) as Vx. destruct (var _ x); auto. cbn [bind].
      pose proof (V _ (st_part st) p) as Vp. destruct (var _ p); auto. cbn [bind].
      rewrite get_ok. unfold vec_at. destruct (_ <? _); simpl; auto.
      destruct (nth_error (map _ _) _); simpl; auto.
    - pose proof (V _ (st_part st) p) as Vp. destruct (var _ p); auto. simpl. apply NP.
    - pose proof (V _ (st_part st) p) as Vp. destruct (var _ p); auto. cbn [bind].
      pose proof (V _ (st_part st) q) as Vq. destruct (var _ q); auto. cbn [bind].
      intros u r H. simpl in H. apply assign_case in H as [(_ & -> & _)|(_ & H)]; eauto.
    - pose proof (V _ (st_part st) p) as Vp. destruct (var _ p); auto. cbn [bind].
      pose proof (V _ (st_part st) q) as Vq. destruct (var _ q); auto. cbn [bind].
      destruct (read_owned _ _ _ S0 O Vp) as [v ->]. simpl. apply NP.
    - pose proof (V _ (st_part st) p) as Vp. destruct (var _ p); auto. cbn [bind].
      unfold write_ref. destruct (read_owned _ _ _ S0 O Vp) as [v ->]. simpl. destruct a; exact O.
  Qed.

  Lemma owned_run ops : forall st, sound st -> owned st -> forallb (fun o => negb (borrows o)) ops = true ->
    match run ops st with Ok st' => owned st' | UB => False | Hang => False | Throw _ => True end.
  Proof.
    induction ops as [|o ops IH]; intros st S0 O I; unfold Parts_Model.run in *; cbn [foldM]; auto.
    simpl in I. apply andb_prop in I as [I1 I2]. apply negb_true_iff in I1.
    pose proof (owned_step st o S0 O I1) as St. destruct (step st o) eqn:E; simpl; auto.
    apply IH; auto. eapply sound_step; eauto.
  Qed.
  Lemma owned_init nc np : owned (st_init dflt nc np).
  Proof. intros p r H. simpl in H. apply nth_error_In in H. apply in_map_iff in H as (b & <- & _). eauto. Qed.
End P.
