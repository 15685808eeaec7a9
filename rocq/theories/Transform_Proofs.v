(** Proofs about coordinate transformations. *)
From Coq Require Import Ascii String ZArith Bool Arith Lia Reals Lra List.
From Verif Require Import Outcome Num ListAux Point_Model Angle_Model Angle_Spec Angle_Proofs Angle_Proofs2 Swath_Model Route_Model
  Path_Model Path_Spec Container_Model Container_Spec Container_Proofs Container_Props
  Text_Model Text_Spec Text_Proofs Field_Model Field_Spec Field_Proofs Transform_Model Transform_Spec.
Import ListNotations.
Local Open Scope nat_scope.

(** *** Letter case *)
Definition all_ascii : list ascii := map ascii_of_nat (seq 0 256).
Lemma all_ascii_in c : In c all_ascii.
Proof.
  unfold all_ascii. apply in_map_iff. exists (nat_of_ascii c). split; [apply ascii_nat_embedding|].
  apply in_seq. pose proof (nat_ascii_bounded c). lia.
Qed.
Definition low := list_ascii_of_string "abcdefghijklmnopqrstuvwxyz".
Definition upp := list_ascii_of_string "ABCDEFGHIJKLMNOPQRSTUVWXYZ".
Definition case_b (c d : ascii) : bool := existsb (fun p => Ascii.eqb (fst p) c && Ascii.eqb (snd p) d) (combine low upp).
Lemma case_iff c d : case_b c d = true <-> case_of c d.
Proof.
  unfold case_b, case_of. rewrite existsb_exists. split.
  - intros [[x y] [I E]]. apply andb_true_iff in E. destruct E as [E1 E2]. apply Ascii.eqb_eq in E1, E2. cbn in E1, E2. subst x y.
    apply In_nth_error in I. destruct I as [i I]. exists i.
    do 26 (destruct i as [|i]; [cbn in I; injection I as <- <-; split; reflexivity|]). destruct i; discriminate.
  - intros [i [A B]]. exists (c, d). split; [|cbn; now rewrite !Ascii.eqb_refl].
    apply (nth_error_In _ i).
    do 26 (destruct i as [|i]; [cbn in A, B; injection A as <-; injection B as <-; reflexivity|]). destruct i; discriminate.
Qed.
Lemma lower_eq c d : lower c = lower d <-> (c = d \/ case_of c d \/ case_of d c).
Proof.
  assert (F : forallb (fun c => forallb (fun d => Bool.eqb (Ascii.eqb (lower c) (lower d)) (Ascii.eqb c d || case_b c d || case_b d c)) all_ascii) all_ascii = true)
    by (vm_compute; reflexivity).
  rewrite forallb_forall in F. specialize (F c (all_ascii_in c)). rewrite forallb_forall in F. specialize (F d (all_ascii_in d)).
  apply Bool.eqb_prop in F. rewrite <- !case_iff, <- !Ascii.eqb_eq, F, !orb_true_iff. tauto.
Qed.
Lemma iequals_iff a b : iequals a b = true <-> same_nocase a b.
Proof.
  unfold iequals, same_nocase. destruct (list_eq_dec ascii_dec (map lower a) (map lower b)) as [E|E].
  - split; auto. intros _. revert b E. induction a as [|c a IH]; intros [|d b] E; try discriminate; constructor.
    + apply lower_eq. cbn in E. congruence.
    + apply IH. cbn in E. congruence.
  - split; [discriminate|]. intros H. exfalso. apply E. clear E. induction H as [|c d a b H _ IH]; [reflexivity|].
    cbn [map]. f_equal; [now apply lower_eq|exact IH].
Qed.

(** *** Systems *)
Lemma no_epsg z d : (forall c, In c z -> a_digit c \/ a_letter c) -> (forall c, In c d -> a_digit c \/ a_letter c) ->
  ~ occurs (txt "EPSG:") (txt "UTM:" ++ z ++ txt " datum:" ++ d).
Proof.
  assert (K : forall l, (forall c, In c l -> a_digit c \/ a_letter c) -> forall u v, l <> u ++ ":"%char :: v).
  { intros l L u v E. destruct (L ":"%char) as [X|X]; [rewrite E; apply in_or_app; right; now left| |].
    - apply digit_class in X; discriminate.
    - apply letter_class in X; discriminate. }
  intros Z D [u [v E]].
  assert (E' : txt "UTM:" ++ z ++ txt " datum:" ++ d = (u ++ txt "EPS") ++ "G"%char :: ":"%char :: v).
  { rewrite E, <- app_assoc. reflexivity. }
  clear E. revert E'. generalize (u ++ txt "EPS"). clear u. intros u E.
  change (txt "UTM:") with ["U"; "T"; "M"; ":"]%char in E. change (txt " datum:") with [" "; "d"; "a"; "t"; "u"; "m"; ":"]%char in E.
  cbn [app] in E.
  destruct u as [|c u]; [discriminate|]. injection E as _ E.
  destruct u as [|c1 u]; [discriminate|]. injection E as _ E.
  destruct u as [|c2 u]; [discriminate|]. injection E as _ E.
  destruct u as [|c3 u]; [discriminate|]. injection E as _ E.
  clear c c1 c2 c3. revert u E. induction z as [|c z IH]; intros u E; cbn [app] in E.
  - do 7 (destruct u as [|? u]; [discriminate|]; cbn [app] in E; injection E as _ E).
    apply (K d D (u ++ ["G"%char]) v). rewrite <- app_assoc. exact E.
  - destruct u as [|c' u]; cbn [app] in E.
    + injection E as _ E. destruct z as [|c2 z]; cbn [app] in E; [discriminate|]. injection E as -> _.
      destruct (Z ":"%char) as [X|X]; [right; now left| |].
      * apply digit_class in X; discriminate.
      * apply letter_class in X; discriminate.
    + injection E as _ E. apply (IH (fun c H => Z c (or_intror H)) u E).
Qed.

(** *** Fields *)
Section Field.
  Variable mk : sptref -> sptref -> outcome (rpoint -> rpoint).
  Variable wkt : rpoint -> rpoint.

  (** The cells of a transformed field. *)
  Definition moved_cells (g : pt -> pt) (f : rfield) : cells RNum :=
    map (map (map (fun p => g (wkt (p_add RNum p (f_ref f)))))) (f_cells f).
  Definition new_ref (g : pt -> pt) (f : rfield) : pt :=
    match f_cells f with [] => g (f_ref f) | _ => first_point (moved_cells g f) end.

  Lemma transform_field_eq f to g : well_formed (f_cells f) -> generateCoordTransf mk (f_crs f) to = Ok g ->
    transform_field mk wkt f to = (mkField (f_id f) to (f_crs f) (new_ref g f)
      (map (map (map (fun p => wkt (p_sub RNum p (new_ref g f))))) (moved_cells g f)), Ok tt).
  Proof.
    intros W G. unfold transform_field, field_isEmpty. rewrite wf_isEmpty by exact W.
    unfold new_ref, moved_cells. destruct (f_cells f) as [|x c] eqn:E; cbn [negb].
    - unfold transform_point. rewrite G. cbn [bind eval]. unfold field_setRefPoint, field_setPrevCRS, field_setCRS; cbn [f_id f_crs f_prev f_ref f_cells].
      rewrite E. reflexivity.
    - unfold field_setField; cbn [f_id f_crs f_prev f_ref f_cells]. rewrite G. cbn [eval].
      assert (WI : cells_add RNum wkt (x :: c) (f_ref f) = map (map (map (fun p => wkt (p_add RNum p (f_ref f))))) (x :: c)).
      { unfold cells_add. now apply wf_image. }
      rewrite WI, map3_map. set (m := map (map (map (fun p => g (wkt (p_add RNum p (f_ref f)))))) (x :: c)).
      assert (WM : well_formed m) by (apply well_formed_map; exact W).
      assert (B : (do b <- cells_getCellBorder RNum m 0; ring_startPoint RNum b) = Ok (first_point m)).
      { destruct (W x (or_introl eq_refl)) as [[p [r [rs Ex]]] _]. subst x. reflexivity. }
      rewrite B. cbn [eval]. unfold field_setRefPoint, field_setPrevCRS, field_setCRS; cbn [f_id f_crs f_prev f_ref f_cells].
      f_equal. f_equal. unfold cells_sub. now apply wf_image.
  Qed.

  Lemma crs_nonempty a b g : generateCoordTransf mk a b = Ok g -> a <> [].
  Proof. intros H ->. discriminate. Qed.
End Field.

(** *** Conversions that compose *)
Section Coherent.
  Variable mk : sptref -> sptref -> outcome (rpoint -> rpoint).
  Variable conv : sptref -> sptref -> rpoint -> rpoint.
  Hypothesis CM : forall a b, mk a b = Ok (conv a b).
  Hypothesis CC : forall a b c p, conv b c (conv a b p) = conv a c p.
  Hypothesis CI : forall a p, conv a a p = p.
  Notation abs := (getCellsAbsPosition RNum (fun p => p)).
  Notation Tf := (transform_field mk (fun p => p)).

  Lemma add_sub (p q : pt) : p_add RNum (p_sub RNum p q) q = p.
  Proof.
    destruct p as [a b c], q as [x y z]. unfold p_add, p_sub; cbn [px py pz].
    assert (Q : forall u v : R, (u - v + v)%R = u) by (intros; ring). cbn. f_equal; apply Q.
  Qed.

  Lemma coherent_step f to r r' : well_formed (f_cells f) -> createSptRef (f_crs f) false = Ok r -> createSptRef to false = Ok r' ->
    exists f', Tf f to = (f', Ok tt) /\ f_id f' = f_id f /\ f_crs f' = to /\ f_prev f' = f_crs f /\ well_formed (f_cells f') /\
      abs f' = map (map (map (conv r r'))) (abs f) /\ (f_cells f <> [] -> starts_at (abs f') (f_ref f') /\ f_cells f' <> []).
  Proof.
    intros W R R'. eexists. split.
    { apply transform_field_eq; [exact W|]. unfold generateCoordTransf. rewrite R, R'. cbn [bind]. apply CM. }
    cbn [f_id f_crs f_prev f_cells f_ref]. do 3 (split; [reflexivity|]).
    assert (WM : well_formed (moved_cells (fun p => p) (conv r r') f)) by (apply well_formed_map; exact W).
    split; [now apply well_formed_map|].
    assert (A : abs (mkField (f_id f) to (f_crs f) (new_ref (fun p => p) (conv r r') f)
      (map (map (map (fun p => p_sub RNum p (new_ref (fun p => p) (conv r r') f)))) (moved_cells (fun p => p) (conv r r') f))) =
      moved_cells (fun p => p) (conv r r') f).
    { rewrite abs_ok by (apply well_formed_map; exact WM). cbn [f_cells f_ref]. rewrite map3_map.
      rewrite <- (map3_id (moved_cells _ _ _)) at 2. apply map_ext. intros x. apply map_ext. intros y. apply map_ext. intros p. apply add_sub. }
    split.
    - rewrite A, abs_ok by exact W. rewrite map3_map. reflexivity.
    - intros N. rewrite A. unfold new_ref, moved_cells. destruct (f_cells f) as [|x c] eqn:E; [now elim N|].
      destruct (W x (or_introl eq_refl)) as [[p [t [rs Ex]]] _]. subst x. split; [|discriminate].
      exists (map (fun p => conv r r' (p_add RNum p (f_ref f))) t), (map (map (fun p => conv r r' (p_add RNum p (f_ref f)))) rs),
        (map (map (map (fun p => conv r r' (p_add RNum p (f_ref f))))) c). reflexivity.
  Qed.

  Lemma conv3 r r' (c : cells RNum) : map (map (map (conv r' r))) (map (map (map (conv r r'))) c) = c.
  Proof.
    rewrite map3_map. rewrite <- (map3_id c) at 2. apply map_ext. intros x. apply map_ext. intros y. apply map_ext.
    intros p. now rewrite CC, CI.
  Qed.
  Lemma conv3c r r' r'' (c : cells RNum) :
    map (map (map (conv r' r''))) (map (map (map (conv r r'))) c) = map (map (map (conv r r''))) c.
  Proof. rewrite map3_map. apply map_ext. intros x. apply map_ext. intros y. apply map_ext. intros p. apply CC. Qed.
End Coherent.

(** *** Names of UTM systems *)
Lemma zone_text z : (1 <= z <= 60)%Z -> to_string z <> [] /\ all a_digit (to_string z).
Proof.
  intros Z. unfold to_string. rewrite (proj2 (Z.ltb_ge z 0)) by lia. cbn [app].
  pose proof (dec_full (Z.abs z) ltac:(lia)) as D. apply decimal_digits in D. destruct D as [A [_ B]]. split; [exact A|]. intros c C. apply digit_class. now apply B.
Qed.

Definition hemi (y : R) : text := if Rltb 0 y then txt "N" else txt "S".
Definition datum_of (crs : text) : text := if list_eq_dec ascii_dec crs (txt "EPSG:4258") then txt "ETRS89" else txt "WGS84".

Lemma hemi_letter y : exists h, hemi y = [h] /\ a_letter h /\ (h = "N"%char /\ (0 < y)%R \/ h = "S"%char /\ (y <= 0)%R).
Proof.
  unfold hemi. destruct (Rltb 0 y) eqn:E.
  - exists "N"%char. apply Rltb_true in E. repeat split; auto. apply letter_class. reflexivity.
  - exists "S"%char. apply Rltb_false in E. repeat split; [apply letter_class; reflexivity|]. right. split; auto.
Qed.
Lemma datum_letters crs : datum_of crs <> [] /\ all (fun c => a_digit c \/ a_letter c) (datum_of crs).
Proof.
  unfold datum_of. destruct (list_eq_dec ascii_dec crs (txt "EPSG:4258")); (split; [discriminate|]); intros c C; cbn in C;
    repeat (destruct C as [<-|C]; [first [right; apply letter_class; reflexivity|left; apply digit_class; reflexivity]|]); destruct C.
Qed.

Lemma spt_utm z y crs : (1 <= z <= 60)%Z -> exists r, createSptRef (txt "UTM:" ++ to_string z ++ hemi y ++ txt " datum:" ++ datum_of crs) false = Ok r.
Proof.
  intros Z. destruct (zone_text z Z) as [ZN ZD]. destruct (hemi_letter y) as [h [EH [LH _]]]. destruct (datum_letters crs) as [DN DL].
  rewrite EH. unfold createSptRef.
  assert (NE : isCoordSystemEPSG (txt "UTM:" ++ to_string z ++ [h] ++ txt " datum:" ++ datum_of crs) = false).
  { destruct (isCoordSystemEPSG _) eqn:E; auto. exfalso. apply find_is in E. revert E.
    change ([h] ++ txt " datum:" ++ datum_of crs) with (h :: txt " datum:" ++ datum_of crs).
    replace (to_string z ++ h :: txt " datum:" ++ datum_of crs) with ((to_string z ++ [h]) ++ txt " datum:" ++ datum_of crs) by (rewrite <- app_assoc; reflexivity).
    apply no_epsg; [|exact DL]. intros c C. apply in_app_iff in C. destruct C as [C|[<-|[]]]; auto. }
  rewrite NE.
  assert (IU : isCoordSystemUTM (txt "UTM:" ++ to_string z ++ [h] ++ txt " datum:" ++ datum_of crs) = true).
  { apply find_is. exists []. eexists. reflexivity. }
  rewrite IU.
  assert (FA : first_at utm_at (txt "UTM:" ++ to_string z ++ [h] ++ txt " datum:" ++ datum_of crs) (to_string z ++ [h])).
  { replace (txt "UTM:" ++ to_string z ++ [h] ++ txt " datum:" ++ datum_of crs) with (txt "UTM:" ++ (to_string z ++ [h]) ++ txt " datum:" ++ datum_of crs) by (rewrite <- app_assoc; reflexivity).
    apply utm_prefixed.
    - exists (to_string z). split; [exact ZN|]. split; [exact ZD|]. right. exists h. split; [now left|reflexivity].
    - intros c t E. injection E as <- _. split.
      + intros K. apply digit_class in K. discriminate.
      + intros [K|K]; [apply letter_class in K; discriminate|discriminate]. }
  unfold getUTMZone, getUTMHemisphere. rewrite (getUTM_first _ _ _ FA).
  assert (L : 2 <= length (to_string z ++ [h])) by (rewrite app_length; destruct (to_string z); [now elim ZN|cbn; lia]).
  unfold substr. rewrite (proj2 (Nat.ltb_ge _ _)) by lia. rewrite (proj2 (Nat.ltb_ge _ _)) by lia.
  cbn [bind andb]. eexists. reflexivity.
Qed.

Lemma utm_name_ok (p : pt) crs : (-180 <= px p < 180)%R -> exists z, zone_of (px p) z /\
  utm_name p crs = Ok (txt "UTM:" ++ to_string z ++ hemi (py p) ++ txt " datum:" ++ datum_of crs).
Proof.
  intros H. exists (Int_part ((px p + 180) / 6) + 1)%Z.
  destruct (floor_spec ((px p + 180) / 6)%R) as [A B]. set (k := Int_part ((px p + 180) / 6)) in *.
  assert (K : (0 <= k < 60)%Z).
  { split.
    - assert (-1 < k)%Z; [|lia]. apply lt_IZR. lra.
    - apply lt_IZR. lra. }
  split.
  - split; [lia|]. rewrite plus_IZR. lra.
  - unfold utm_name. fold k. cbv zeta. rewrite (proj2 (Z.ltb_ge _ _)) by lia. rewrite (proj2 (Z.leb_gt _ _)) by lia. reflexivity.
Qed.

(** *** Paths *)
Lemma points_to_relink (a b : pt) d ty v (u : rstate) : ps_point u = b ->
  points_to (mkPS (N := RNum) a (angleFromPoint (p_sub RNum b a)) (p_distance a b) d ty v) u.
Proof.
  intros <-. set (b := ps_point u). unfold points_to. cbn [ps_point ps_len ps_angle].
  assert (E : p_distance a b = hyp (px (p_sub RNum b a)) (py (p_sub RNum b a))).
  { unfold p_distance, hyp. f_equal. simpl. ring. }
  destruct (angle_polar (p_sub RNum b a)) as [X Y]. rewrite <- E in X, Y. repeat split.
  - transitivity (px a + px (p_sub RNum b a))%R; [unfold b; simpl; lra|]. rewrite <- X. reflexivity.
  - transitivity (py a + py (p_sub RNum b a))%R; [unfold b; simpl; lra|]. rewrite <- Y. reflexivity.
  - apply sqrt_pos.
  - rewrite angleFromPoint_eq. apply mod2_range.
  - rewrite angleFromPoint_eq. apply mod2_range.
Qed.

Lemma relink_spec p : length (relink p) = length p /\ forall i s, nth_error p i = Some s ->
  exists s', nth_error (relink p) i = Some s' /\ ps_point s' = ps_point s /\ ps_dir s' = ps_dir s /\ ps_type s' = ps_type s /\
    ps_vel s' = ps_vel s /\ (forall t, nth_error p (S i) = Some t -> points_to s' t) /\ (nth_error p (S i) = None -> s' = s).
Proof.
  induction p as [|s [|t p] IH].
  - split; auto. intros [|i] s H; discriminate.
  - split; auto. intros [|[|i]] s' H; try discriminate. injection H as <-. exists s. repeat split; auto; intros; discriminate.
  - destruct IH as [L IH]. split.
    + change (S (length (relink (t :: p))) = S (length (t :: p))). now rewrite L.
    + intros [|i] s' H.
      * injection H as <-. eexists. split; [reflexivity|]. cbn [ps_point ps_dir ps_type ps_vel]. repeat (split; [reflexivity|]).
        split; [|discriminate]. intros u U. injection U as <-. now apply points_to_relink.
      * apply (IH i s' H).
Qed.
