(** Properties of the parts of collections: what can be done with a part taken out of a
    Cells, MultiLineString or Cell, and for how long.  *)
From Coq Require Import List Arith Bool Lia.
From Verif Require Import Outcome Graph_Proofs4 Container_Model Alias_Spec Parts_Model Parts_Spec
  Parts_Proofs Parts_Proofs2 Parts_Proofs3.
Import ListNotations.
Local Open Scope nat_scope.

(** A small instance for the examples: a part is a list of numbers, add and clone keep it. *)
Definition ex_empty (l : list nat) : bool := match l with [] => true | _ => false end.
Definition ex_run := @run (list nat) ex_empty [] (fun l => l) (fun l => l).
Definition ex_step := @step (list nat) ex_empty [] (fun l => l) (fun l => l).
Definition ex_init := @st_init (list nat) [].

(** C265: a program that takes parts out of collections with getGeometry(i) only never reads or
    writes through a dead handle, whatever it copies, changes, replaces and releases. *)
Theorem parts_by_value_safe : forall A isEmpty (dflt : A) put wkt nc np ops,
  forallb (fun o => negb (borrows o)) ops = true ->
  run isEmpty dflt put wkt ops (st_init dflt nc np) <> UB /\
  forall st, run isEmpty dflt put wkt ops (st_init dflt nc np) = Ok st ->
    forall p, p < np -> exists v, part_value st p = Ok v.
Proof.
  intros A isEmpty dflt put wkt nc np ops H.
  pose proof (owned_run isEmpty dflt put wkt ops _ (sound_init dflt nc np) (owned_init dflt nc np) H) as O.
  split; [intro E; rewrite E in O; exact O|].
  intros st E p Hp. rewrite E in O.
  pose proof (sound_run isEmpty dflt put wkt ops _ _ (sound_init dflt nc np) E) as S0.
  assert (L : length (st_part st) = np).
  { assert (G : forall ops s s', run isEmpty dflt put wkt ops s = Ok s' -> length (st_part s') = length (st_part s)).
    { clear. induction ops as [|o ops IH]; intros s s' H; unfold run in *; cbn [foldM] in H.
      - inversion H; auto.
      - bok H. rewrite (IH _ _ H). clear - E.
        destruct o; simpl in E; boks E; try (inversion E; subst; simpl; rewrite ?assign_length; reflexivity).
        + destruct (_ <? _); boks E; inversion E; subst; reflexivity.
        + destruct (find _ _); inversion E; subst; simpl; rewrite assign_length; reflexivity.
        + unfold write_ref in E. boks E. inversion E; subst. destruct r0; reflexivity. }
    rewrite (G _ _ _ E). simpl. rewrite map_length, seq_length. reflexivity. }
  destruct (nth_error (st_part st) p) as [r|] eqn:N.
  - unfold part_value. rewrite (proj2 (var_ok _ _ _) N). simpl. eapply read_owned; eauto.
  - apply nth_error_None in N. lia.
Qed.

Example parts_by_value_safe_example :
  let ops := [NewPart 0 [1;2]; AddPart 0 0; NewPart 0 [3]; AddPart 0 0; CopyColl 0 1;
              GetPart 0 1 1; NewColl 0; NewColl 1; Change 1 (cons 7)] in
  forallb (fun o => negb (borrows o)) ops = true /\
  exists st, ex_run ops (ex_init 2 2) = Ok st /\ part_value st 1 = Ok [7;3] /\ part_value st 0 = Ok [3].
Proof. vm_compute. split; [reflexivity|]. eexists. repeat split; reflexivity. Qed.

(** C266: a handle made by getGeometry(i, part) or by an iterator shows the i-th part of its
    collection, changed or not, exactly as long as some variable has that collection. *)
Theorem part_lifetime : forall A isEmpty (dflt : A) put wkt nc np ops0 st x i p st1 ops st2 a,
  run isEmpty dflt put wkt ops0 (st_init dflt nc np) = Ok st ->
  nth_error (st_coll st) x = Some a ->
  step isEmpty dflt put wkt st (RefPart x i p) = Ok st1 ->
  run isEmpty dflt put wkt ops st1 = Ok st2 ->
  forallb (fun o => negb (sets_part p o)) ops = true ->
  forallb (fun o => negb (imports o)) ops = true ->
  (forall y, nth_error (st_coll st2) y = Some a ->
     exists l v, coll_value st2 y = Ok l /\ nth_error l i = Some v /\ part_value st2 p = Ok v) /\
  (~ In a (st_coll st2) -> part_value st2 p = UB).
Proof.
  intros A isEmpty dflt put wkt nc np ops0 st x i p st1 ops st2 a R0 Hx Hr R1 Sp Im.
  pose proof (sound_run isEmpty dflt put wkt _ _ _ (sound_init dflt nc np) R0) as S0.
  pose proof (sound_step isEmpty dflt put wkt _ _ _ S0 Hr) as S1.
  pose proof (sound_run isEmpty dflt put wkt _ _ _ S1 R1) as S2.
  destruct (ref_part isEmpty dflt put wkt _ _ _ _ _ Hr) as (a' & c & v & Ha' & N & Hp & Hh & Hc).
  assert (a' = a) by congruence. subst a'.
  assert (N1 : nth_error (parts_of st1 a) i = Some (c, v)) by (unfold parts_of in *; rewrite Hh; exact N).
  destruct (kept_run isEmpty dflt put wkt _ _ _ _ _ _ _ S1 R1 Im N1) as [v2 N2].
  pose proof (part_kept_run isEmpty dflt put wkt _ _ _ _ R1 Sp) as Hp2. rewrite Hp in Hp2.
  unfold part_value. rewrite (proj2 (var_ok _ _ _) Hp2). cbn [bind]. split.
  - intros y Hy. exists (map snd (parts_of st2 a)), v2. unfold coll_value.
    rewrite (proj2 (var_ok _ _ _) Hy). cbn [bind]. repeat split; auto.
    + rewrite nth_error_map, N2. reflexivity.
    + eapply read_alive; eauto. eapply nth_error_In; eauto.
  - intro Hn. eapply read_dead; eauto.
Qed.

Definition ex_two : list (@op (list nat)) := [NewPart 0 [1;2]; AddPart 0 0; NewPart 0 [3]; AddPart 0 0].

Example part_lifetime_example :
  exists st st1 st2 st3,
    ex_run ex_two (ex_init 2 2) = Ok st /\ ex_step st (RefPart 0 1 1) = Ok st1 /\
    ex_run [CopyColl 0 1; NewColl 0; Change 1 (cons 9); AddPart 1 0] st1 = Ok st2 /\
    coll_value st2 1 = Ok [[1;2];[9;3];[3]] /\ part_value st2 1 = Ok [9;3] /\
    ex_run [NewColl 1] st2 = Ok st3 /\ part_value st3 1 = UB.
Proof. vm_compute. do 4 eexists. repeat split; reflexivity. Qed.

(** C266: in particular, while the variable of the collection keeps its object, the handle and
    the i-th part are the same: changes of either are seen through the other. *)
Theorem part_view : forall A isEmpty (dflt : A) put wkt nc np ops0 st x i p st1 ops st2,
  run isEmpty dflt put wkt ops0 (st_init dflt nc np) = Ok st ->
  step isEmpty dflt put wkt st (RefPart x i p) = Ok st1 ->
  run isEmpty dflt put wkt ops st1 = Ok st2 ->
  forallb (fun o => negb (sets_part p o || sets_coll x o || imports o)) ops = true ->
  exists l v, coll_value st2 x = Ok l /\ nth_error l i = Some v /\ part_value st2 p = Ok v.
Proof.
  intros A isEmpty dflt put wkt nc np ops0 st x i p st1 ops st2 R0 Hr R1 F.
  destruct (ref_part isEmpty dflt put wkt _ _ _ _ _ Hr) as (a & c & v & Ha & N & Hp & Hh & Hc).
  assert (F3 : forallb (fun o => negb (sets_part p o)) ops = true /\
               forallb (fun o => negb (sets_coll x o)) ops = true /\
               forallb (fun o => negb (imports o)) ops = true).
  { rewrite !forallb_forall in *. repeat split; intros o Ho; apply F in Ho;
      destruct (sets_part p o), (sets_coll x o), (imports o); auto. }
  destruct F3 as (F1 & F2 & F3).
  destruct (part_lifetime A isEmpty dflt put wkt nc np ops0 st x i p st1 ops st2 a R0 Ha Hr R1 F1 F3) as [L _].
  apply L. rewrite (coll_kept_run isEmpty dflt put wkt _ _ _ _ R1 F2), Hc. exact Ha.
Qed.

Example part_view_example :
  exists st st1 st2,
    ex_run ex_two (ex_init 1 2) = Ok st /\ ex_step st (RefPart 0 0 1) = Ok st1 /\
    ex_run [Change 1 (cons 5); AddPart 0 1; Change 1 (cons 6)] st1 = Ok st2 /\
    coll_value st2 0 = Ok [[6;5;1;2];[3];[5;1;2]] /\ part_value st2 1 = Ok [6;5;1;2].
Proof. vm_compute. do 3 eexists. repeat split; reflexivity. Qed.

(** C267, as one would expect it: a cell that getCellWherePoint or an iterator gave can be used
    as long as its variable exists.  It cannot: first the collection is released, then another
    part of it is replaced. *)
Theorem part_outlives_refuted :
  exists (ops1 ops2 : list (@op (list nat))) st1 st2,
    ops1 = ex_two ++ [WherePart 0 (fun l => 2 <=? length l) 1; NewColl 0] /\
    ops2 = ex_two ++ [RefPart 0 1 1; NewPart 0 [4]; SetPart 0 0 0] /\
    ex_run ops1 (ex_init 1 2) = Ok st1 /\ part_value st1 1 = UB /\
    ex_run ops2 (ex_init 1 2) = Ok st2 /\ coll_value st2 0 = Ok [[4];[3]] /\ part_value st2 1 = UB.
Proof. do 4 eexists. split; [reflexivity|]. split; [reflexivity|]. vm_compute. repeat split; reflexivity. Qed.

(** C267: what getCellWherePoint gives is the first part that fits, as a handle: it is dead once no
    variable has the collection.  Without such a part it is a new empty one. *)
Theorem where_part_lifetime : forall A isEmpty (dflt : A) put wkt nc np ops0 st x f p st1 ops st2 a,
  run isEmpty dflt put wkt ops0 (st_init dflt nc np) = Ok st ->
  nth_error (st_coll st) x = Some a ->
  step isEmpty dflt put wkt st (WherePart x f p) = Ok st1 ->
  run isEmpty dflt put wkt ops st1 = Ok st2 ->
  forallb (fun o => negb (sets_part p o)) ops = true ->
  forallb (fun o => negb (imports o)) ops = true ->
  (exists i l0 v0, coll_value st x = Ok l0 /\ nth_error l0 i = Some v0 /\ f v0 = true /\
     (forall j w, j < i -> nth_error l0 j = Some w -> f w = false) /\
     (forall y, nth_error (st_coll st2) y = Some a ->
        exists l v, coll_value st2 y = Ok l /\ nth_error l i = Some v /\ part_value st2 p = Ok v) /\
     (~ In a (st_coll st2) -> part_value st2 p = UB))
  \/ part_value st1 p = Ok dflt.
Proof.
  intros A isEmpty dflt put wkt nc np ops0 st x f p st1 ops st2 a R0 Hx Hr R1 Sp Im.
  pose proof (sound_run isEmpty dflt put wkt _ _ _ (sound_init dflt nc np) R0) as S0.
  pose proof (sound_step isEmpty dflt put wkt _ _ _ S0 Hr) as S1.
  pose proof (sound_run isEmpty dflt put wkt _ _ _ S1 R1) as S2.
  destruct (where_part isEmpty dflt put wkt _ _ _ _ _ Hr)
    as [(a' & i & c & v & Ha' & N & Fv & Fj & Hp & Hh & Hc) | (b & Hp & Hb)].
  - left. assert (a' = a) by congruence. subst a'.
    exists i, (map snd (parts_of st a)), v.
    unfold coll_value at 1. rewrite (proj2 (var_ok _ _ _) Hx). cbn [bind].
    split; auto. split; [rewrite nth_error_map, N; reflexivity|]. split; auto. split.
    { intros j w Hj Hw. rewrite nth_error_map in Hw. destruct (nth_error (parts_of st a) j) as [[d u]|] eqn:E;
        inversion Hw; subst. eapply Fj; eauto. }
    assert (N1 : nth_error (parts_of st1 a) i = Some (c, v)) by (unfold parts_of in *; rewrite Hh; exact N).
    destruct (kept_run isEmpty dflt put wkt _ _ _ _ _ _ _ S1 R1 Im N1) as [v2 N2].
    pose proof (part_kept_run isEmpty dflt put wkt _ _ _ _ R1 Sp) as Hp2. rewrite Hp in Hp2.
    unfold part_value. rewrite (proj2 (var_ok _ _ _) Hp2). cbn [bind]. split.
    + intros y Hy. exists (map snd (parts_of st2 a)), v2. unfold coll_value.
      rewrite (proj2 (var_ok _ _ _) Hy). cbn [bind]. repeat split; auto.
      * rewrite nth_error_map, N2. reflexivity.
      * eapply read_alive; eauto. eapply nth_error_In; eauto.
    + intro Hn. eapply read_dead; eauto.
  - right. unfold part_value. rewrite (proj2 (var_ok _ _ _) Hp). simpl. unfold vec_index. rewrite Hb. reflexivity.
Qed.

Example where_part_lifetime_example :
  exists st st1 st2,
    ex_run ex_two (ex_init 1 2) = Ok st /\ ex_step st (WherePart 0 (fun l => length l =? 1) 1) = Ok st1 /\
    part_value st1 1 = Ok [3] /\
    ex_run [Change 1 (cons 8)] st1 = Ok st2 /\ coll_value st2 0 = Ok [[1;2];[8;3]].
Proof. vm_compute. do 3 eexists. repeat split; reflexivity. Qed.

(** C268: a part taken with getGeometry(i) keeps its value whatever happens to the collection and to
    the other parts, as long as it is not changed itself, directly or through a copy. *)
Theorem part_value_kept : forall A isEmpty (dflt : A) put wkt nc np ops0 st x i p st1 ops st2,
  run isEmpty dflt put wkt ops0 (st_init dflt nc np) = Ok st ->
  step isEmpty dflt put wkt st (GetPart x i p) = Ok st1 ->
  run isEmpty dflt put wkt ops st1 = Ok st2 ->
  forallb (fun o => negb (sets_part p o || uses_part p o)) ops = true ->
  exists l v, coll_value st x = Ok l /\ nth_error l i = Some v /\ part_value st2 p = Ok v.
Proof.
  intros A isEmpty dflt put wkt nc np ops0 st x i p st1 ops st2 R0 Hg R1 F.
  pose proof (sound_run isEmpty dflt put wkt _ _ _ (sound_init dflt nc np) R0) as S0.
  pose proof (sound_step isEmpty dflt put wkt _ _ _ S0 Hg) as S1.
  simpl in Hg. boks Hg. rewrite get_ok in E1. destruct (_ <? _); try discriminate.
  unfold vec_at in E1. destruct (nth_error (map snd (parts_of st r)) i) as [v|] eqn:N; inversion E1; subst r1.
  exists (map snd (parts_of st r)), v. unfold coll_value at 1. rewrite E. cbn [bind].
  split; auto. split; auto.
  set (b := length (st_solo st)).
  assert (I1 : nth_error (st_part st1) p = Some (Own b) /\ nth_error (st_solo st1) b = Some v /\
    (forall q, nth_error (st_part st1) q = Some (Own b) -> q = p)).
  { inversion Hg; subst st1; simpl. repeat split.
    - apply assign_same. eapply var_lt; eauto.
    - unfold b. rewrite nth_error_app2, Nat.sub_diag by lia. reflexivity.
    - intros q Hq. apply assign_case in Hq as [(-> & _ & _)|(_ & Hq)]; auto.
      apply (s_own _ S0) in Hq. unfold b in Hq. lia. }
  clear - R1 F I1 S1.
  revert st1 R1 I1 S1. induction ops as [|o ops IH]; intros st1 R1 (I1 & I2 & I3) S1; unfold run in *; cbn [foldM] in R1.
  - inversion R1; subst st2. unfold part_value. rewrite (proj2 (var_ok _ _ _) I1). simpl. unfold vec_index. rewrite I2. reflexivity.
  - bok R1. simpl in F. apply andb_prop in F as [F1 F2]. apply negb_true_iff in F1. apply orb_false_elim in F1 as [F1 F3].
    apply (IH F2 r R1); [|eapply sound_step; eauto].
    rewrite (part_kept isEmpty dflt put wkt _ _ _ _ E F1). split; [exact I1|].
    assert (Lb : b < length (st_solo st1)) by (apply nth_error_Some; congruence).
    assert (NP : forall q w, q <> p -> nth_error (st_solo (new_part st1 q w)) b = Some v /\
      forall q', nth_error (st_part (new_part st1 q w)) q' = Some (Own b) -> q' = p).
    { intros q w D. simpl. split.
      - rewrite nth_error_app1; auto.
      - intros q' H. apply assign_case in H as [(_ & Eq & _)|(_ & H)]; auto. inversion Eq. lia. }
    assert (ST : forall q ref, q <> p -> ref <> Own b ->
      forall q', nth_error (assign (st_part st1) q ref) q' = Some (Own b) -> q' = p).
    { intros q ref D Nb q' H. apply assign_case in H as [(_ & Eq & _)|(_ & H)]; auto. congruence. }
    destruct o; simpl in E, F1, F3; try apply Nat.eqb_neq in F1; try apply Nat.eqb_neq in F3; boks E.
    + inversion E; subst; auto.
    + inversion E; subst; auto.
    + inversion E; subst; auto.
    + inversion E; subst; auto.
    + inversion E; subst; auto.
    + destruct (_ <? _); boks E; inversion E; subst; auto.
    + inversion E; subst. apply NP; auto.
    + inversion E; subst; simpl. split; auto. apply ST; auto.
      unfold borrow in E2. destruct (_ <=? _); try discriminate. boks E2. inversion E2. discriminate.
    + destruct (find _ _); inversion E; subst; simpl; [|apply NP; auto].
      split; auto. apply ST; auto. discriminate.
    + inversion E; subst. apply NP; auto.
    + inversion E; subst; simpl. split; auto. apply ST; auto. intros ->.
      apply F3. apply I3. apply var_ok; auto.
    + inversion E; subst. apply NP; auto.
    + unfold write_ref in E. boks E. inversion E; subst. destruct r0 as [b'|c]; simpl; auto.
      split; auto. rewrite assign_other; auto. intros ->. apply F3. apply I3. apply var_ok; auto.
Qed.

Example part_value_kept_example :
  exists st st1 st2,
    ex_run ex_two (ex_init 2 3) = Ok st /\ ex_step st (GetPart 0 0 1) = Ok st1 /\
    ex_run [RefPart 0 0 2; Change 2 (cons 9); ClonePart 1 2; Change 2 (cons 8); NewColl 0] st1 = Ok st2 /\
    part_value st2 1 = Ok [1;2] /\ part_value st2 2 = Ok [8;1;2].
Proof. vm_compute. do 3 eexists. repeat split; reflexivity. Qed.

(** C269: programs that share nothing work as if every variable had its own value: collections are
    lists of parts, and every function does to the list what its name says. *)
Theorem collections_as_values : forall A isEmpty (dflt : A) put wkt nc np ops,
  forallb (fun o => negb (shares o)) ops = true ->
  orel shows (run isEmpty dflt put wkt ops (st_init dflt nc np))
             (vrun isEmpty dflt put wkt ops (v_init dflt nc np)).
Proof.
  intros A isEmpty dflt put wkt nc np ops H.
  destruct (agrees_run isEmpty dflt put wkt ops _ _ (agrees_init dflt nc np) H); constructor.
  apply agrees_shows; auto.
Qed.

Example collections_as_values_example :
  let ops := ex_two ++ [SetPart 0 3 0; CloneColl 0 1; SetPart 1 0 0; GetPart 0 0 1; Change 1 (cons 4); AddPart 1 1] in
  forallb (fun o => negb (shares o)) ops = true /\
  vrun ex_empty [] (fun l => l) (fun l => l) ops (v_init [] 2 2) =
    Ok (mkV [[[1;2];[3];[];[3]]; [[3];[3];[];[3];[4;1;2]]] [[3];[4;1;2]]).
Proof. vm_compute. split; reflexivity. Qed.

(** C270, as one would expect it: a copy of a collection is a collection of its own.  Adding a part to
    one adds it to the other, but replacing a part of one does not change the other. *)
Theorem collection_copy_refuted :
  exists st1 st2 st3,
    ex_run (ex_two ++ [CopyColl 0 1]) (ex_init 2 1) = Ok st1 /\ coll_value st1 1 = Ok [[1;2];[3]] /\
    ex_run [AddPart 0 0] st1 = Ok st2 /\ coll_value st2 1 = Ok [[1;2];[3];[3]] /\
    ex_run [SetPart 0 0 0] st1 = Ok st3 /\ coll_value st3 0 = Ok [[3];[3]] /\ coll_value st3 1 = Ok [[1;2];[3]].
Proof. vm_compute. do 3 eexists. repeat split; reflexivity. Qed.

(** C270: what addGeometry, setGeometry and importFromWkt do to a copy [y] of [x]: a part set at an index
    in use goes to [x] alone, everything else goes to both. *)
Theorem collection_copies : forall A isEmpty (dflt : A) put wkt nc np ops0 st x y o st' l,
  run isEmpty dflt put wkt ops0 (st_init dflt nc np) = Ok st -> x <> y ->
  coll_value st x = Ok l -> nth_error (st_coll st) y = nth_error (st_coll st) x ->
  step isEmpty dflt put wkt st o = Ok st' ->
  match o with
  | AddPart z p => z = x -> exists v, part_value st p = Ok v /\
      coll_value st' x = Ok (l ++ [put v]) /\ coll_value st' y = Ok (l ++ [put v])
  | SetPart z i p => z = x -> exists v, part_value st p = Ok v /\
      coll_value st' x = Ok (with_part isEmpty dflt put l i v) /\
      coll_value st' y = Ok (if i <? count isEmpty l then l else with_part isEmpty dflt put l i v)
  | Import z m => z = x -> coll_value st' x = Ok m /\ coll_value st' y = Ok m
  | NewColl z => z = x -> coll_value st' x = Ok [] /\ coll_value st' y = Ok l
  | _ => True
  end.
Proof.
  intros A isEmpty dflt put wkt nc np ops0 st x y o st' l R0 D Vx Hy Hs.
  pose proof (sound_run isEmpty dflt put wkt _ _ _ (sound_init dflt nc np) R0) as S0.
  unfold coll_value in Vx. bok Vx. inversion Vx; subst l. clear Vx. rename r into a. apply var_ok in E. rewrite E in Hy.
  pose proof (s_coll _ S0 _ _ E) as La.
  assert (Lx : x < length (st_coll st)) by (apply nth_error_Some; congruence).
  assert (NC : forall m, coll_value (new_coll st x m) x = Ok m /\ coll_value (new_coll st x m) y = Ok (map snd (parts_of st a))).
  { intro m. unfold coll_value. simpl. rewrite (proj2 (var_ok _ _ _) (assign_same _ _ _ Lx)). cbn [bind].
    assert (Hy' : var (assign (st_coll st) x (length (st_heap st))) y = Ok a) by (apply var_ok; rewrite assign_other; auto).
    rewrite Hy'. cbn [bind]. unfold parts_of; simpl.
    change (nth ?b ?h []) with (kids_at h b). rewrite !kids_snoc, Nat.eqb_refl, combine_snd.
    destruct (Nat.eqb_spec a (length (st_heap st))); [lia|]. auto. }
  assert (HP : forall k f, let s := mkState (assign (st_heap st) a k) (st_solo st) f (st_coll st) (st_part st) in
    coll_value s x = Ok (map snd k) /\ coll_value s y = Ok (map snd k)).
  { intros k f s. unfold s, coll_value; simpl. rewrite (proj2 (var_ok _ _ _) E), (proj2 (var_ok _ _ _) Hy). cbn [bind].
    unfold parts_of; simpl. change (nth ?b ?h []) with (kids_at h b). rewrite kids_assign, Nat.eqb_refl by auto. auto. }
  destruct o; auto; intros ->; simpl in Hs; rewrite (proj2 (var_ok _ _ _) E) in Hs; cbn [bind] in Hs; boks Hs.
  - inversion Hs; subst. apply NC.
  - inversion Hs; subst. 
    destruct (HP (combine (seq (st_fresh st) (length l)) l) (st_fresh st + length l)) as [H1 H2].
    rewrite combine_snd in H1, H2. auto.
  - inversion Hs; subst. exists r0. unfold part_value. rewrite E0. cbn [bind]. split; auto.
    replace (map snd (parts_of st a) ++ [put r0]) with
      (map snd (parts_of st a ++ combine (seq (st_fresh st) (length [put r0])) [put r0])) by (rewrite map_app; reflexivity).
    apply HP.
  - unfold with_part. change (count isEmpty ?l) with (coll_size isEmpty l).
    destruct (Nat.ltb_spec i (coll_size isEmpty (map snd (parts_of st a)))) as [Hi|Hi].
    + boks Hs. inversion Hs; subst. unfold part_value. rewrite E0. cbn [bind].
      destruct (read_ref st r) as [v|e| |] eqn:Rr.
      * rewrite set_values in E1 by auto. inversion E1; subst. exists v. split; auto.
      * exfalso. revert E1. clear - Hi. intro H.
        assert (G : forall k s acc, s <= i < s + k -> forall res,
          foldM (fun acc j => do g <- (if i =? j then Throw e else coll_getGeometry isEmpty (map snd (parts_of st a)) j); Ok (acc ++ [put g])) (seq s k) acc <> Ok res).
        { induction k; intros s acc Hs res Q; [lia|]. cbn [seq foldM] in Q. destruct (Nat.eqb_spec i s); [discriminate|].
          boks Q. eapply IHk; [|exact Q]. lia. }
        eapply G; [|exact H]. lia.
      * exfalso. revert E1. clear - Hi. intro H.
        assert (G : forall k s acc, s <= i < s + k -> forall res,
          foldM (fun acc j => do g <- (if i =? j then UB else coll_getGeometry isEmpty (map snd (parts_of st a)) j); Ok (acc ++ [put g])) (seq s k) acc <> Ok res).
        { induction k; intros s acc Hs res Q; [lia|]. cbn [seq foldM] in Q. destruct (Nat.eqb_spec i s); [discriminate|].
          boks Q. eapply IHk; [|exact Q]. lia. }
        eapply G; [|exact H]. lia.
      * exfalso. revert E1. clear - Hi. intro H.
        assert (G : forall k s acc, s <= i < s + k -> forall res,
          foldM (fun acc j => do g <- (if i =? j then Hang else coll_getGeometry isEmpty (map snd (parts_of st a)) j); Ok (acc ++ [put g])) (seq s k) acc <> Ok res).
        { induction k; intros s acc Hs res Q; [lia|]. cbn [seq foldM] in Q. destruct (Nat.eqb_spec i s); [discriminate|].
          boks Q. eapply IHk; [|exact Q]. lia. }
        eapply G; [|exact H]. lia.
    + boks Hs. inversion Hs; subst. exists r0. unfold part_value. rewrite E0. cbn [bind]. split; auto.
      set (m := repeat (put dflt) (i - coll_size isEmpty (map snd (parts_of st a))) ++ [put r0]).
      replace (map snd (parts_of st a) ++ m) with
        (map snd (parts_of st a ++ combine (seq (st_fresh st) (length m)) m)) by (rewrite map_app, combine_snd; reflexivity).
      apply HP.
Qed.

Example collection_copies_example :
  exists st st1 st2,
    ex_run (ex_two ++ [CopyColl 0 1]) (ex_init 2 1) = Ok st /\ coll_value st 0 = Ok [[1;2];[3]] /\
    nth_error (st_coll st) 1 = nth_error (st_coll st) 0 /\
    ex_step st (SetPart 0 1 0) = Ok st1 /\ coll_value st1 1 = Ok [[1;2];[3]] /\
    ex_step st (SetPart 0 3 0) = Ok st2 /\ coll_value st2 1 = Ok [[1;2];[3];[];[3]].
Proof. vm_compute. do 3 eexists. repeat split; reflexivity. Qed.

(** C266: a handle to part [i] is refused with out_of_range exactly when there is no such part, where a collection of empty
    parts counts as having none; otherwise it shows that part. *)
Theorem part_handle : forall A isEmpty (dflt : A) put wkt nc np ops0 st x i p l,
  run isEmpty dflt put wkt ops0 (st_init dflt nc np) = Ok st -> coll_value st x = Ok l -> p < length (st_part st) ->
  (count isEmpty l <= i -> step isEmpty dflt put wkt st (RefPart x i p) = Throw OutOfRange) /\
  (i < count isEmpty l -> exists st1 v, step isEmpty dflt put wkt st (RefPart x i p) = Ok st1 /\
     nth_error l i = Some v /\ part_value st1 p = Ok v /\ coll_value st1 x = Ok l).
Proof.
  intros A isEmpty dflt put wkt nc np ops0 st x i p l R0 V Hp. rewrite count_size.
  unfold coll_value in V. destruct (var (st_coll st) x) as [a| | |] eqn:Ea; try discriminate V. cbn [bind] in V. injection V as V.
  assert (Ep : exists r, var (st_part st) p = Ok r).
  { unfold var, vec_at. destruct (nth_error (st_part st) p) as [r|] eqn:N; [now exists r|]. apply nth_error_None in N. lia. }
  destruct Ep as [r Ep]. split; intro H.
  - cbn [step]. rewrite Ea, Ep. cbn [bind]. unfold borrow. rewrite V. apply Nat.leb_le in H. rewrite H. reflexivity.
  - assert (S : exists st1, step isEmpty dflt put wkt st (RefPart x i p) = Ok st1).
    { cbn [step]. rewrite Ea, Ep. cbn [bind]. unfold borrow. rewrite V. pose proof H as H'. apply Nat.leb_gt in H'. rewrite H'.
      unfold vec_index. destruct (nth_error (parts_of st a) i) as [k|] eqn:N; [cbn [bind]; now eexists|]. apply nth_error_None in N.
      assert (length l = length (parts_of st a)) by (rewrite <- V; apply map_length). unfold coll_size in H. destruct (forallb isEmpty l); lia. }
    destruct S as [st1 S]. destruct (part_view A isEmpty dflt put wkt nc np ops0 st x i p st1 [] st1 R0 S eq_refl eq_refl) as (l1 & v & C & N & P1).
    exists st1, v. split; [exact S|]. destruct (ref_part isEmpty dflt put wkt _ _ _ _ _ S) as (a' & c & v' & Ha & _ & _ & Hh & Hc).
    assert (coll_value st1 x = Ok l).
    { unfold coll_value, parts_of. rewrite Hc, Hh, Ea. cbn [bind]. f_equal. exact V. }
    assert (l1 = l) as -> by congruence. auto.
Qed.

Example part_handle_example : exists st, ex_run ex_two (ex_init 1 1) = Ok st /\ coll_value st 0 = Ok [[1;2];[3]] /\
  ex_step st (RefPart 0 2 0) = Throw OutOfRange /\ exists st1, ex_step st (RefPart 0 1 0) = Ok st1 /\ part_value st1 0 = Ok [3].
Proof. vm_compute. eexists. repeat split. eexists. split; reflexivity. Qed.

Print Assumptions part_handle.
Print Assumptions parts_by_value_safe.
Print Assumptions part_lifetime.
Print Assumptions part_view.
Print Assumptions part_outlives_refuted.
Print Assumptions where_part_lifetime.
Print Assumptions part_value_kept.
Print Assumptions collections_as_values.
Print Assumptions collection_copy_refuted.
Print Assumptions collection_copies.
