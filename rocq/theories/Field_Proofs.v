(** Proofs about fields and coordinate systems. *)
From Coq Require Import Ascii String ZArith Bool Arith Lia Reals Lra List.
From Verif Require Import Outcome Num Point_Model Container_Model Container_Spec Container_Proofs Container_Props
  Text_Model Text_Spec Text_Proofs Field_Model Field_Spec.
Import ListNotations.
Local Open Scope nat_scope.

(** *** Codes in texts *)
Lemma sign_or (c : ascii) : negb (is_alnum c) = true <-> a_sign c.
Proof. rewrite negb_true_iff. apply sign_class. Qed.
Lemma mark_class (c : ascii) : is_digit c = false -> (is_word c = true <-> a_mark c).
Proof.
  intros D. unfold is_word, is_alnum, a_mark. rewrite D. cbn [orb]. rewrite orb_true_iff, letter_class, Ascii.eqb_eq. reflexivity.
Qed.

Lemma utm_match t z : match_here utm_regex t = Some z <-> utm_at t z.
Proof.
  unfold utm_regex. rewrite match_word. split.
  - destruct (starts (txt "UTM") t) eqn:S; [|discriminate]. apply starts_iff in S. destruct S as [u ->].
    rewrite skipn_app, skipn_all, Nat.sub_diag. cbn [app skipn].
    destruct (run_ex (fun c => negb (is_alnum c)) u) as [sep [v [E [A B]]]].
    rewrite E. rewrite match_skip; auto; [|intros c C; rewrite sign_or in C; apply sign_class in C; unfold is_alnum in C; now apply orb_false_iff in C].
    intros H. destruct v as [|c v]; [discriminate|].
    change (match_here (One true is_digit :: ?r) (c :: v)) with (if is_digit c then option_map (capture true c) (match_here r v) else None) in H.
    destruct (is_digit c) eqn:C; [|discriminate].
    destruct (run_ex is_digit v) as [d [rest [E' [A' B']]]]. rewrite E' in H.
    rewrite match_digits_word in H by auto.
    exists sep, (c :: d), rest. split; [now rewrite E'|]. split; [intros x X; apply sign_or; auto|]. split; [discriminate|].
    split; [intros x [<-|X]; apply digit_class; auto|]. split.
    { intros x y R K. apply digit_class in K. rewrite (B' _ _ R) in K; discriminate. }
    destruct rest as [|x r].
    + right. split; [intros ? ? K; discriminate|]. destruct d as [|y d]; [discriminate|]. split; [cbn; lia|]. now injection H as <-.
    + pose proof (B' x r eq_refl) as X. destruct (is_word x) eqn:W.
      * left. exists x, r. split; [reflexivity|]. split; [now apply mark_class|]. now injection H as <-.
      * right. split; [intros y q K; injection K as <- <-; rewrite <- mark_class by exact X; congruence|].
        destruct d as [|y d]; [discriminate|]. split; [cbn; lia|]. now injection H as <-.
  - intros [sep [d [rest [-> [A [D [AD [R H]]]]]]]].
    replace (starts (txt "UTM") (txt "UTM" ++ sep ++ d ++ rest)) with true by (symmetry; apply starts_iff; now eexists).
    rewrite skipn_app, skipn_all, Nat.sub_diag. cbn [app skipn]. destruct d as [|c d]; [congruence|].
    rewrite match_skip.
    + cbn [app]. change (match_here (One true is_digit :: ?r) (c :: ?v)) with (if is_digit c then option_map (capture true c) (match_here r v) else None).
      rewrite (proj2 (digit_class c) (AD c (or_introl eq_refl))).
      assert (R' : forall x t, rest = x :: t -> is_digit x = false).
      { intros x t K. destruct (is_digit x) eqn:X; auto. exfalso. apply digit_class in X. eapply R; eauto. }
      rewrite match_digits_word; [|intros x X; apply digit_class, AD; now right|exact R'].
      destruct H as [[x [r [-> [M ->]]]]|[M [L ->]]].
      * rewrite (proj2 (mark_class x (R' x r eq_refl)) M). reflexivity.
      * destruct d as [|y d]; [cbn in L; lia|]. destruct rest as [|x r]; [reflexivity|].
        destruct (is_word x) eqn:W; [|reflexivity]. exfalso. apply mark_class in W; [|now apply (R' x r)]. eapply M; eauto.
    + intros x X. apply sign_or, sign_class in X. unfold is_alnum in X. now apply orb_false_iff in X.
    + intros x X. apply sign_or; auto.
    + intros x t K. cbn [app] in K. injection K as <- _. apply negb_false_iff. apply alnum_class. left. apply AD; now left.
Qed.

Lemma datum_match t z : match_here datum_regex t = Some z <-> datum_at t z.
Proof.
  unfold datum_regex. rewrite match_word.
  assert (ED : forall s, match_here [] s = Some (@nil ascii)) by reflexivity.
  split.
  - destruct (starts (txt "datum") t) eqn:S; [|discriminate]. apply starts_iff in S. destruct S as [u ->].
    rewrite skipn_app, skipn_all, Nat.sub_diag. cbn [app skipn].
    destruct (run_ex (fun c => negb (is_alnum c)) u) as [sep [v [E [A B]]]].
    rewrite E. rewrite match_skip; auto; [|intros c C; now apply negb_true_iff in C].
    intros H. destruct v as [|c v]; [discriminate|].
    change (match_here (One true is_alnum :: ?r) (c :: v)) with (if is_alnum c then option_map (capture true c) (match_here r v) else None) in H.
    destruct (is_alnum c) eqn:C; [|discriminate].
    destruct (run_ex is_alnum v) as [d [rest [E' [A' B']]]]. rewrite E' in H.
    rewrite (match_run is_alnum [] [] d rest ED) in H by auto. cbn [option_map capture] in H. injection H as <-. rewrite app_nil_r.
    exists sep, rest. split; [now rewrite E'|]. split; [intros x X; apply sign_or; auto|]. split; [discriminate|].
    split; [intros x [<-|X]; apply alnum_class; auto|].
    intros x y R K. apply alnum_class in K. rewrite (B' _ _ R) in K; discriminate.
  - intros [sep [rest [-> [A [D [AD R]]]]]].
    replace (starts (txt "datum") (txt "datum" ++ sep ++ z ++ rest)) with true by (symmetry; apply starts_iff; now eexists).
    rewrite skipn_app, skipn_all, Nat.sub_diag. cbn [app skipn]. destruct z as [|c d]; [congruence|].
    rewrite match_skip.
    + cbn [app]. change (match_here (One true is_alnum :: ?r) (c :: ?v)) with (if is_alnum c then option_map (capture true c) (match_here r v) else None).
      rewrite (proj2 (alnum_class c) (AD c (or_introl eq_refl))).
      rewrite (match_run is_alnum [] [] d rest ED).
      * cbn [option_map capture]. now rewrite app_nil_r.
      * intros x X. apply alnum_class, AD; now right.
      * intros x t K. destruct (is_alnum x) eqn:X; auto. exfalso. apply alnum_class in X. eapply R; eauto.
    + intros x X. now apply negb_true_iff in X.
    + intros x X. apply sign_or; auto.
    + intros x t K. cbn [app] in K. injection K as <- _. apply negb_false_iff. apply alnum_class. apply AD; now left.
Qed.

Lemma search_first r at_ : (forall t z, match_here r t = Some z <-> at_ t z) -> forall s,
  (forall z, regex_search r s = Some z <-> first_at at_ s z) /\ (regex_search r s = None <-> nowhere at_ s).
Proof.
  intros H s. split.
  - intros z. rewrite search_some. unfold first_at. split; intros [a [t [E [M L]]]]; exists a, t; repeat split; auto.
    + now apply H.
    + intros a' t' z' E' K Z. apply H in Z. rewrite (L a' t' E' K) in Z. discriminate.
    + now apply H.
    + intros a' t' E' K. destruct (match_here r t') as [z'|] eqn:Z; auto. exfalso. apply H in Z. eapply L; eauto.
  - rewrite search_none. unfold nowhere. split.
    + intros K a t z E Z. apply H in Z. rewrite (K a t E) in Z. discriminate.
    + intros K a t E. destruct (match_here r t) as [z|] eqn:Z; auto. exfalso. apply H in Z. eapply K; eauto.
Qed.

Lemma getUTM_cases s dflt : (exists z, first_at utm_at s z /\ getUTMCoordSystem s dflt = z) \/
  (nowhere utm_at s /\ getUTMCoordSystem s dflt = dflt).
Proof.
  destruct (search_first utm_regex utm_at utm_match s) as [P Q]. unfold getUTMCoordSystem.
  destruct (regex_search utm_regex s) as [z|] eqn:E; [left; exists z; split; auto; now apply P|right; split; auto; now apply Q].
Qed.
Lemma getUTM_first s dflt z : first_at utm_at s z -> getUTMCoordSystem s dflt = z.
Proof. intros H. apply (proj1 (search_first utm_regex utm_at utm_match s)) in H. unfold getUTMCoordSystem; now rewrite H. Qed.
Lemma getDatum_cases s dflt : (exists z, first_at datum_at s z /\ getUTMDatum s dflt = z) \/
  (nowhere datum_at s /\ getUTMDatum s dflt = dflt).
Proof.
  destruct (search_first datum_regex datum_at datum_match s) as [P Q]. unfold getUTMDatum.
  destruct (regex_search datum_regex s) as [z|] eqn:E; [left; exists z; split; auto; now apply P|right; split; auto; now apply Q].
Qed.
Lemma getDatum_first s dflt z : first_at datum_at s z -> getUTMDatum s dflt = z.
Proof. intros H. apply (proj1 (search_first datum_regex datum_at datum_match s)) in H. unfold getUTMDatum; now rewrite H. Qed.

Lemma find_is pat s : (match find_text pat s with Some _ => true | None => false end) = true <-> occurs pat s.
Proof.
  pose proof (find_none pat s) as H. destruct (find_text pat s) as [i|] eqn:E.
  - split; auto. intros _. apply find_some in E. destruct E as [a [b [-> _]]]. now exists a, b.
  - split; [discriminate|]. intros K. exfalso. now apply (proj1 H).
Qed.

(** The code that starts right after "UTM:". *)
Lemma utm_prefixed z s : (exists d, d <> [] /\ all a_digit d /\ ((2 <= length d /\ z = d) \/ exists c, a_mark c /\ z = d ++ [c])) ->
  (forall c t, s = c :: t -> ~ a_digit c /\ ~ a_mark c) -> first_at utm_at (txt "UTM:" ++ z ++ s) z.
Proof.
  intros [d [D [AD H]]] S. exists [], (txt "UTM:" ++ z ++ s). split; [reflexivity|]. split; [|cbn; lia].
  assert (CL : all a_sign [":"%char]) by (intros c [<-|[]]; apply sign_class; reflexivity).
  destruct H as [[L ->]|[c [M ->]]].
  - exists [":"%char], d, s. split; [reflexivity|]. split; [exact CL|]. repeat split; auto.
    + intros c t E. now apply (S c t).
    + right. repeat split; auto. intros c t E. now apply (S c t).
  - exists [":"%char], d, (c :: s). split; [now rewrite <- app_assoc|]. split; [exact CL|]. repeat split; auto.
    + intros x t E. injection E as <- _. intros K. apply digit_class in K.
      destruct M as [M| ->]; [|discriminate]. apply letter_class in M. destruct c as [[] [] [] [] [] [] [] []]; discriminate.
    + left. now exists c, s.
Qed.

(** The shape of codes. *)
Lemma utm_shape t z : utm_at t z -> exists d, d <> [] /\ all a_digit d /\ ((2 <= length d /\ z = d) \/ exists c, a_mark c /\ z = d ++ [c]).
Proof.
  intros [sep [d [rest [_ [_ [D [AD [_ H]]]]]]]]. exists d. repeat split; auto.
  destruct H as [[c [r [_ [M ->]]]]|[_ [L ->]]]; [right; eauto|left; auto].
Qed.

(** *** Cells *)
Lemma closed_map {A B} (g : A -> B) r : closed r -> closed (map g r).
Proof.
  intros [->|[p [m [->| ->]]]]; [now left| |]; right.
  - exists (g p), (map g m). left. cbn [map]. now rewrite map_app.
  - exists (g p), []. now right.
Qed.

Lemma well_formed_map {A B} (g : A -> B) c : well_formed c -> well_formed (map (map (map g)) c).
Proof.
  intros H x X. apply in_map_iff in X. destruct X as [y [<- Y]]. destruct (H y Y) as [[p [r [rs ->]]] C]. split.
  - now exists (g p), (map g r), (map (map g) rs).
  - intros q Q. apply in_map_iff in Q. destruct Q as [q' [<- Q]]. apply closed_map; auto.
Qed.

Lemma wf_image (wkt f : pt -> pt) c : well_formed c ->
  cells_image RNum wkt f c = map (map (map (fun p => wkt (f p)))) c.
Proof.
  intros W. unfold cells_image, coll_addGeometry. rewrite firstn_coll, fold_snoc; cbn [app].
  replace (if forallb (cell_isEmpty RNum) c then [] else c) with c.
  2:{ destruct c as [|x c]; [reflexivity|]. destruct (W x (or_introl eq_refl)) as [[p [r [rs ->]]] _]. reflexivity. }
  apply map_ext_in. intros x X. destruct (W x X) as [[p [r [rs E]]] C].
  unfold cell_image. rewrite firstn_coll.
  change (fun res r => cell_addRing RNum wkt res (line_image RNum f r))
    with (fun res (r : line RNum) => res ++ [closeRing RNum (line_clone RNum wkt (line_image RNum f r))]).
  rewrite fold_snoc; cbn [app].
  replace (if forallb (line_isEmpty RNum) x then [] else x) with x by (subst x; reflexivity).
  apply map_ext_in. intros q Q. rewrite line_image_map. unfold line_clone. rewrite map_map.
  apply closeRing_closed. apply closed_map. auto.
Qed.

Lemma wf_isEmpty (c : cells RNum) : well_formed c -> cells_isEmpty RNum c = match c with [] => true | _ => false end.
Proof. intros W. destruct c as [|x c]; [reflexivity|]. destruct (W x (or_introl eq_refl)) as [[p [r [rs ->]]] _]. reflexivity. Qed.

(** The first point of the first border. *)
Definition first_point (c : cells RNum) : pt :=
  match c with ((p :: _) :: _) :: _ => p | _ => p_default RNum end.

Lemma field_make_ok wkt c id : well_formed c ->
  field_make RNum wkt c id = Ok (mkField id [] [] (first_point c) (map (map (map (fun p => wkt (p_sub RNum p (first_point c))))) c)).
Proof.
  intros W. unfold field_make. rewrite wf_isEmpty by exact W. unfold cells_sub.
  destruct c as [|x c]; cbn [negb].
  - cbn [bind]. rewrite wf_image by exact W. reflexivity.
  - destruct (W x (or_introl eq_refl)) as [[p [r [rs E]]] _]. subst x. unfold cells_getCellBorder, vec_index, ring_startPoint, line_getGeometry, vec_at. cbn [nth_error bind]. rewrite wf_image by exact W. reflexivity.
Qed.

Lemma abs_ok wkt (f : field RNum) : well_formed (f_cells f) ->
  getCellsAbsPosition RNum wkt f = map (map (map (fun p => wkt (p_add RNum p (f_ref f))))) (f_cells f).
Proof. intros W. unfold getCellsAbsPosition, cells_add. now apply wf_image. Qed.

Lemma within_map e (g h : pt -> pt) (c : cells RNum) : (forall p, within e (g p) (h p)) ->
  cells_within e (map (map (map g)) c) (map (map (map h)) c).
Proof.
  intros H. unfold cells_within. induction c as [|x c IH]; cbn [map]; constructor; auto.
  induction x as [|r x IHx]; cbn [map]; constructor; auto.
  induction r as [|p r IHr]; cbn [map]; constructor; auto.
Qed.
Lemma map3_id (c : cells RNum) : map (map (map (fun p => p))) c = c.
Proof.
  rewrite <- (map_id c) at 2. apply map_ext. intros x. rewrite <- (map_id x) at 2. apply map_ext. intros r. apply map_id.
Qed.
Lemma map3_map {A B C} (g : A -> B) (h : B -> C) (c : list (list (list A))) :
  map (map (map h)) (map (map (map g)) c) = map (map (map (fun p => h (g p)))) c.
Proof. rewrite map_map. apply map_ext. intros x. rewrite map_map. apply map_ext. intros r. apply map_map. Qed.
