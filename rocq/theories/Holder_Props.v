(** C277 to C280: fields that share their cells. *)
From Coq Require Import Ascii String List Arith Bool Reals Lra Lia.
From Verif Require Import Outcome Num Point_Model Angle_Model Container_Model Text_Model Field_Model Transform_Model
  Alias_Spec Parts_Model Parts_Spec Parts_Proofs Holder_Model Holder_Spec Holder_Proofs Holder_Proofs2 Holder_Proofs3.
Import ListNotations.
Local Open Scope nat_scope.

Lemma run_same mk wkt ops : forall st l v l', well_formed st -> careful mk wkt st ops -> views st = v -> l = l' ->
  orel same (foldM (fun sl o => do r <- step mk wkt (fst sl) o; Ok (fst r, snd sl ++ [snd r])) ops (st, l))
            (foldM (fun sl o => do r <- vstep mk wkt (fst sl) o; Ok (fst r, snd sl ++ [snd r])) ops (v, l')).
Proof.
  induction ops as [|o ops IH]; intros st l v l' W C <- <-; cbn [foldM].
  - constructor. split; reflexivity.
  - destruct C as [U C]. cbn [fst snd]. pose proof (step_same mk wkt st o W U) as S.
    destruct (step mk wkt st o) as [[st' x]| | |] eqn:E; inversion S as [a b R Ha Hb|e0 Ha Hb|Ha Hb|Ha Hb]; subst; cbn [bind]; try constructor.
    destruct b as [v' y]. destruct R as [R1 R2]. cbn [fst snd] in R1, R2. subst y. cbn [fst snd].
    apply IH; auto.
    + eapply effect_wf; [eapply step_effect; eauto|exact W].
    + eapply C; eauto.
Qed.

Lemma no_edits_careful mk wkt ops : forall st, existsb edits ops = false -> careful mk wkt st ops.
Proof.
  induction ops as [|o ops IH]; intros st H; [exact I|]. cbn [existsb] in H. apply orb_false_iff in H. destruct H as [H1 H2].
  split; [|intros; apply IH; exact H2]. intros p E. destruct o; try discriminate.
Qed.

Lemma init_wf nc nf : well_formed (st_init nc nf).
Proof.
  unfold st_init. split; cbn [st_heap st_cells st_field]; rewrite repeat_length; apply Forall_forall.
  - intros a Ha. apply in_seq in Ha. lia.
  - intros f Hf. apply in_map_iff in Hf. destruct Hf as (a & <- & Ha). apply in_seq in Ha. cbn. lia.
Qed.
Lemma nth_repeat_nil {B} n k : nth k (repeat (@nil B) n) [] = [].
Proof. revert k. induction n; intros [|k]; simpl; auto. Qed.
Lemma init_views nc nf : views (st_init nc nf) = mkV (repeat [] nc) (repeat (field_default RNum) nf).
Proof.
  unfold views, st_init. cbn [st_heap st_cells st_field]. f_equal.
  - rewrite (map_ext _ (fun _ => [])) by (intro; apply nth_repeat_nil).
    generalize 0. induction nc as [|n IH]; intro k; simpl; [reflexivity|]. f_equal. apply IH.
  - rewrite map_map. rewrite (map_ext _ (fun _ => field_default RNum)).
    + generalize nc. induction nf as [|n IH]; intro k; simpl; [reflexivity|]. f_equal. apply IH.
    + intro a. cbn. rewrite nth_repeat_nil. reflexivity.
Qed.

(** C277: as long as no object is changed in place by hand, sharing cannot be seen: fields
    may be copied, cloned, made from cells, set, read and transformed in any order, every
    variable shows what it would show if it had its own cells, and the same exceptions are
    thrown.  Transforming changes objects in place too, but only those that it has made. *)
Theorem field_values :
  forall mk wkt ops nc nf, existsb edits ops = false ->
    orel same (run mk wkt ops (st_init nc nf))
              (vrun mk wkt ops (mkV (repeat [] nc) (repeat (field_default RNum) nf))).
Proof.
  intros mk wkt ops nc nf H. unfold run, vrun. apply run_same; auto.
  - apply init_wf.
  - apply no_edits_careful; exact H.
  - apply init_views.
Qed.
Print Assumptions field_values.

(** C278: changing cells in place is as harmless when nothing else points to them. *)
Theorem field_values_careful :
  forall mk wkt ops nc nf, careful mk wkt (st_init nc nf) ops ->
    orel same (run mk wkt ops (st_init nc nf))
              (vrun mk wkt ops (mkV (repeat [] nc) (repeat (field_default RNum) nf))).
Proof.
  intros mk wkt ops nc nf H. unfold run, vrun. apply run_same; auto.
  - apply init_wf.
  - apply init_views.
Qed.
Print Assumptions field_values_careful.

(** C279: what a change in place does: the variables that point to the object show the
    changed cells, all others show what they showed, and texts and reference points stay. *)
Theorem field_edit_exact :
  forall mk wkt st o p e a, well_formed st ->
    (o = match p with InCells x => EditCells x e | InField f => EditField f e end) ->
    holds st p a ->
    exists st', step mk wkt st o = Ok (st', None) /\ well_formed st' /\
      (forall q b, holds st' q b <-> holds st q b) /\
      (forall q b, holds st q b ->
         cells_at (views st') q = if b =? a then option_map e (cells_at (views st) q) else cells_at (views st) q) /\
      map f_id (v_field (views st')) = map f_id (v_field (views st)) /\
      map f_crs (v_field (views st')) = map f_crs (v_field (views st)) /\
      map f_prev (v_field (views st')) = map f_prev (v_field (views st)) /\
      map f_ref (v_field (views st')) = map f_ref (v_field (views st)).
Proof.
  intros mk wkt [h cs fs] o p e a W -> H.
  assert (La : a < length h) by exact (holds_bound _ _ _ W H).
  assert (S : step mk wkt (mkState h cs fs) (match p with InCells x => EditCells x e | InField f => EditField f e end) =
              Ok (mkState (assign h a (e (deref h a))) cs fs, None)).
  { destruct p as [x|f]; cbn in H; cbn [step st_cells st_field st_heap]; unfold var, vec_at.
    - rewrite H. reflexivity.
    - destruct (nth_error fs f) as [v|]; [|discriminate]. injection H as <-. reflexivity. }
  exists (mkState (assign h a (e (deref h a))) cs fs). split; [exact S|].
  split; [eapply effect_wf; [eapply step_effect; eauto|exact W]|]. split; [intros [x|f] b; cbn; tauto|].
  split; [|cbn; rewrite !map_map; cbn; auto].
  intros [x|f] b Hb; cbn in Hb; cbn [cells_at views v_cells v_field st_heap st_cells st_field]; rewrite !nth_error_map.
  - rewrite Hb. cbn [option_map]. change (nth b (assign h a (e (deref h a))) []) with (deref (assign h a (e (deref h a))) b).
    rewrite deref_assign by exact La. destruct (b =? a) eqn:E; [apply Nat.eqb_eq in E; subst; reflexivity|reflexivity].
  - destruct (nth_error fs f) as [v|] eqn:Ef; [|discriminate]. cbn in Hb. injection Hb as <-. cbn [option_map f_cells].
    change (nth (h_cells v) (assign h a (e (deref h a))) []) with (deref (assign h a (e (deref h a))) (h_cells v)).
    rewrite deref_assign by exact La. destruct (h_cells v =? a) eqn:E; [apply Nat.eqb_eq in E; subst; reflexivity|reflexivity].
Qed.
Print Assumptions field_edit_exact.

(** C280: fields made by the constructor, by clone() or by transforming cells share
    nothing with any other variable. *)
Theorem field_made_anew :
  forall mk wkt st o g st' x, well_formed st -> step mk wkt st o = Ok (st', x) ->
    match o with
    | MakeField _ _ k | CloneField _ k | NewField k => g = k
    | TransformField k _ => g = k /\ exists v, nth_error (v_field (views st)) k = Some v /\ field_isEmpty v = false
    | _ => False
    end ->
    apart (fun p => p = InField g) st'.
Proof.
  intros mk wkt [h cs fs] o g st' x W H K.
  destruct o; try contradiction; unfold step in H; cbn [st_heap st_cells st_field] in H;
    repeat match type of H with
      | context [var ?l ?y] =>
          let V := fresh "V" in pose proof (var_some l y) as V;
          let E := fresh "E" in destruct (nth_error l y) eqn:E;
          [let K := fresh "K" in destruct V as [K V]; rewrite K in H; clear K|rewrite V in H]; cbn [bind] in H; try discriminate
      end; cbn [alloc] in H.
  - subst g. injection H as <- <-. apply (new_apart (mkState h cs fs) _ f _ (length h)); auto.
  - subst g. pose proof (h_make_good wkt h (deref h n) id) as M.
    destruct (h_make wkt h (deref h n) id) as [[h' v]| | |]; try discriminate. destruct M as (Ex & [L1 L2] & _).
    cbn [bind fst snd] in H. injection H as <- <-. apply (new_apart (mkState h cs fs) _ f _ (h_cells v)); auto.
  - subst g. match type of H with bind (h_clone wkt h ?a) _ = _ =>
        pose proof (h_clone_good wkt h a) as M; destruct (h_clone wkt h a) as [[h' w]| | |]; try discriminate end.
    destruct M as (Ex & [L1 L2] & _).
    cbn [bind fst snd] in H. injection H as <- <-. apply (new_apart (mkState h cs fs) _ g0 _ (h_cells w)); auto.
  - destruct K as [-> (v & Hv & Em)]. cbn [views v_field st_heap st_field] in Hv. rewrite nth_error_map, E in Hv.
    cbn [option_map] in Hv. injection Hv as <-. unfold field_isEmpty in Em. cbn [f_cells] in Em.
    pose proof (transform_new mk wkt h h0 to Em) as T.
    destruct (h_transform mk wkt h h0 to) as [[h' f'] r]. unfold ended in H.
    assert (Q : st' = mkState h' cs (assign fs f f')) by (destruct r; congruence). subst st'.
    apply (new_apart (mkState h cs fs) _ f _ (h_cells f')); auto.
Qed.
Print Assumptions field_made_anew.

(** C280: variables that share nothing with the others stay apart from them, whatever is
    done to them, and the others show what they showed. *)
Theorem field_groups :
  forall mk wkt (G : place -> Prop) ops st st' xs, well_formed st -> apart G st ->
    (forall o p, In o ops -> names o p -> G p) ->
    run mk wkt ops st = Ok (st', xs) ->
    well_formed st' /\ apart G st' /\ same_outside G (views st) (views st').
Proof.
  intros mk wkt G ops st st' xs W A N H. unfold run in H.
  set (F := fun (sl : state * list (option exn)) o => do r <- step mk wkt (fst sl) o; Ok (fst r, snd sl ++ [snd r])) in H.
  revert W A N H. generalize (@nil (option exn)) as l. revert st st' xs.
  induction ops as [|o ops IH]; intros st st' xs l W A N H; cbn [foldM] in H.
  - injection H as <- <-. split; [exact W|]. split; [exact A|]. split; auto.
  - unfold F at 1 in H. cbn [fst snd] in H.
    destruct (step mk wkt st o) as [[s1 x]| | |] eqn:E; try discriminate. cbn [bind fst snd] in H.
    pose proof (step_effect mk wkt st o s1 x W E) as Ef.
    assert (No : forall p, names o p -> G p) by (intros p; apply N; left; reflexivity).
    destruct (IH s1 st' xs (l ++ [x])) as (W' & A' & [S1 S2]); auto.
    + eapply effect_wf; eauto.
    + eapply effect_apart; eauto.
    + intros o' p Ho. apply N. right; exact Ho.
    + destruct (effect_outside G o st s1 W Ef A No) as [T1 T2].
      split; [exact W'|]. split; [exact A'|]. split.
      * intros y Gy. rewrite S1, T1; auto.
      * intros f Gf. rewrite S2, T2; auto.
Qed.
Print Assumptions field_groups.

(** ** Examples *)

(** A triangle, and a program with two fields that share it. *)
Definition tri : list (list rpoint) :=
  [[mkPoint (N := RNum) 0%R 0%R 0%R; mkPoint (N := RNum) 4%R 0%R 0%R; mkPoint (N := RNum) 0%R 3%R 0%R; mkPoint (N := RNum) 0%R 0%R 0%R]].
Definition two_fields : list op :=
  [NewCells 0 [tri]; SetField 0 0; CopyField 0 1; SetId 1 (txt "copy")].
Definition no_mk (_ _ : sptref) : outcome (rpoint -> rpoint) := Ok (fun p => p).
Definition shared_state : state :=
  mkState [[]; []; []; [tri]] [3]
    [mkH [] [] [] (p_default RNum) 3; mkH (txt "copy") [] [] (p_default RNum) 3].

Example field_values_ex :
  existsb edits (two_fields ++ [TransformField 1 (txt "EPSG:4326")]) = false /\
  run no_mk (fun p => p) two_fields (st_init 1 2) = Ok (shared_state, [None; None; None; None]) /\
  holds shared_state (InField 0) 3 /\ holds shared_state (InField 1) 3 /\ holds shared_state (InCells 0) 3.
Proof. repeat split. Qed.

Example field_values_careful_ex :
  careful no_mk (fun p => p) (st_init 1 1) [EditCells 0 (fun c => c ++ [tri]); SetField 0 0] /\
  exists st', run no_mk (fun p => p) [EditCells 0 (fun c => c ++ [tri]); SetField 0 0] (st_init 1 1) = Ok (st', [None; None]) /\
    cells_at (views st') (InField 0) = Some [tri].
Proof.
  split.
  - cbn [careful]. split.
    + intros p E. injection E as <-. intros a q Ha Hq. cbn in Ha. injection Ha as <-.
      destruct q as [[|x]|[|f]]; cbn in Hq; auto; try discriminate; [destruct x|destruct f]; discriminate.
    + intros st' x _. split; [|intros; exact I]. intros p E. discriminate.
  - eexists. split; [reflexivity|reflexivity].
Qed.

Lemma shared_wf : well_formed shared_state.
Proof. split; repeat constructor. Qed.

Example field_edit_exact_ex :
  well_formed shared_state /\ holds shared_state (InField 1) 3 /\ holds shared_state (InField 0) 3.
Proof. split; [exact shared_wf|]. split; reflexivity. Qed.

(** Cloning, and transforming a field whose system is not known, which throws. *)
Example field_made_anew_ex :
  (exists st' x, step no_mk (fun p => p) (st_init 0 2) (CloneField 0 1) = Ok (st', x)) /\
  (exists st' x, step no_mk (fun p => p) shared_state (TransformField 1 (txt "EPSG:4326")) = Ok (st', x) /\
    exists v, nth_error (v_field (views shared_state)) 1 = Some v /\ field_isEmpty v = false).
Proof.
  split; [eexists; eexists; reflexivity|]. eexists. eexists. split; [reflexivity|]. eexists. split; reflexivity.
Qed.

Example field_groups_ex :
  exists st, step no_mk (fun p => p) shared_state (TransformField 1 (txt "EPSG:4326")) = Ok (st, Some InvalidArgument) /\
    well_formed st /\ apart (fun p => p = InField 1) st /\
    (forall o p, In o [EditField 1 (fun _ => [])] -> names o p -> p = InField 1) /\
    exists st' xs, run no_mk (fun p => p) [EditField 1 (fun _ => [])] st = Ok (st', xs).
Proof.
  destruct (step no_mk (fun p => p) shared_state (TransformField 1 (txt "EPSG:4326"))) as [[st x]| | |] eqn:E; try discriminate.
  assert (Q : x = Some InvalidArgument) by (cbv in E; congruence). subst x.
  exists st. split; [reflexivity|].
  split; [eapply effect_wf; [eapply step_effect; [exact shared_wf|exact E]|exact shared_wf]|].
  split; [|split].
  - eapply field_made_anew; [exact shared_wf|exact E|]. cbn. split; [reflexivity|]. eexists. split; reflexivity.
  - intros o p [<-|[]] N. destruct p; cbn in N; [contradiction|subst; reflexivity].
  - injection E as <-. eexists. eexists. reflexivity.
Qed.

(** C281, refuted: a copy of a field is not a field of its own.  Changing the cells of the
    copy changes the original. *)
Theorem field_copy_refuted :
  exists mk wkt ops st' xs v', run mk wkt ops (st_init 1 2) = Ok (st', xs) /\
    vrun mk wkt ops (mkV [[]] [field_default RNum; field_default RNum]) = Ok (v', xs) /\
    ops = [NewCells 0 [tri]; SetField 0 0; CopyField 0 1; EditField 1 (fun c => c ++ [tri])] /\
    cells_at v' (InField 0) = Some [tri] /\ cells_at (views st') (InField 0) = Some [tri; tri] /\
    cells_at (views st') (InCells 0) = Some [tri; tri].
Proof.
  exists no_mk, (fun p => p), [NewCells 0 [tri]; SetField 0 0; CopyField 0 1; EditField 1 (fun c => c ++ [tri])].
  eexists. eexists. eexists. split; [reflexivity|]. split; [reflexivity|]. repeat split.
Qed.
Print Assumptions field_copy_refuted.

(** The condition of C280 on transforming is needed: a field without cells, once
    transformed, still shares its object with the field it was copied from. *)
Theorem transform_empty_shares :
  exists mk wkt ops st', run mk wkt ops (st_init 0 2) = Ok (st', [None; None; None]) /\
    ops = [SetCRS 0 (txt "EPSG:4258"); CopyField 0 1; TransformField 1 (txt "EPSG:4326")] /\
    ~ apart (fun p => p = InField 1) st'.
Proof.
  exists no_mk, (fun p => p), [SetCRS 0 (txt "EPSG:4258"); CopyField 0 1; TransformField 1 (txt "EPSG:4326")].
  eexists. split; [vm_compute; reflexivity|]. split; [reflexivity|]. intro A.
  apply (A (InField 1) (InField 0) 0); auto; try reflexivity. discriminate.
Qed.
Print Assumptions transform_empty_shares.
