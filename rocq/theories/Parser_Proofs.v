(** Proofs about the importers. *)
From Coq Require Import Ascii String ZArith Bool Arith Lia Reals Lra List.
From Verif Require Import Outcome Num ListAux Point_Model Angle_Model Swath_Model Container_Model Container_Spec Container_Proofs
  Container_Props Text_Model Text_Spec Text_Proofs Field_Model Field_Spec Field_Proofs Transform_Model Parser_Model Parser_Spec.
Import ListNotations.
Local Open Scope nat_scope.

(** *** Replacing *)
Lemma find_from_app pat s t : find_from pat (s ++ t) (length s) = option_map (Nat.add (length s)) (find_text pat t).
Proof.
  unfold find_from. rewrite app_length. destruct (length s + length t <? length s) eqn:E; [apply Nat.ltb_lt in E; lia|].
  now rewrite skipn_app, Nat.sub_diag, skipn_all.
Qed.

Lemma replace_loop_ok pat rep : pat <> [] -> forall fuel done s, length s <= fuel ->
  exists r, replaced pat rep s r /\
    replace_loop fuel (done ++ s) pat rep (option_map (Nat.add (length done)) (find_text pat s)) = Ok (done ++ r).
Proof.
  intros NE. induction fuel as [|fuel IH]; intros done s L.
  - destruct s; [|cbn in L; lia]. exists []. destruct pat as [|c pat]; [easy|]. split; [|reflexivity].
    apply rep_done. intros [a [b E]]. destruct a; discriminate.
  - destruct (find_text pat s) as [i|] eqn:F.
    + destruct (proj1 (find_some _ _ _) F) as [a [b [E [La M]]]]. subst s i.
      assert (Lb : length b <= fuel) by (rewrite !app_length in L; destruct pat; [easy|cbn in L; lia]).
      cbn [option_map replace_loop]. unfold replace.
      replace (length (done ++ a ++ pat ++ b) <? length done + length a) with false
        by (symmetry; apply Nat.ltb_ge; rewrite !app_length; lia).
      cbn [bind]. rewrite (app_assoc done a (pat ++ b)), <- app_length.
      rewrite firstn_app, firstn_all, Nat.sub_diag. cbn [firstn]. rewrite app_nil_r.
      rewrite skipn_app, skipn_all2 by lia. replace (length (done ++ a) + length pat - length (done ++ a)) with (length pat) by lia.
      rewrite skipn_app, skipn_all, Nat.sub_diag. cbn [skipn app].
      rewrite <- app_length. rewrite (app_assoc (done ++ a) rep b).
      rewrite find_from_app.
      destruct (IH ((done ++ a) ++ rep) b Lb) as [r [R E]]. exists (a ++ rep ++ r). split.
      * now apply rep_step.
      * rewrite E. now rewrite <- !app_assoc.
    + exists s. split; [apply rep_done; now apply find_none|reflexivity].
Qed.

Lemma findAndReplaceAll_replaced pat rep s : pat <> [] -> exists r, replaced pat rep s r /\ findAndReplaceAll s pat rep = Ok r.
Proof.
  intros NE. destruct (replace_loop_ok pat rep NE (length s) [] s (le_n _)) as [r [R E]]. exists r. split; auto.
  unfold findAndReplaceAll. cbn [app length] in E. rewrite <- E. f_equal. destruct (find_text pat s); reflexivity.
Qed.

Lemma occurs_one c s : occurs [c] s <-> In c s.
Proof.
  split; [intros [a [b ->]]; apply in_or_app; right; now left|]. intros H. destruct (in_split _ _ H) as [a [b ->]]. now exists a, b.
Qed.

Lemma flat_map_free c rep a : ~ In c a -> flat_map (fun x => if Ascii.eqb x c then rep else [x]) a = a.
Proof.
  induction a as [|x a IH]; intros H; [reflexivity|]. cbn [flat_map].
  destruct (Ascii.eqb x c) eqn:E; [apply Ascii.eqb_eq in E; subst; exfalso; apply H; now left|].
  cbn [app]. f_equal. apply IH. intros K; apply H; now right.
Qed.

(** Replacing a single character. *)
Lemma replaced_one c rep s r : replaced [c] rep s r -> r = flat_map (fun x => if Ascii.eqb x c then rep else [x]) s.
Proof.
  induction 1 as [s H|a b r M R IH].
  - rewrite flat_map_free; auto. intros K; apply H. now apply occurs_one.
  - rewrite flat_map_app, flat_map_free.
    + cbn [app flat_map]. rewrite Ascii.eqb_refl. now rewrite IH.
    + intros K. destruct (in_split _ _ K) as [u [v E]]. subst a. specialize (M u (v ++ [c] ++ b)).
      rewrite <- app_assoc in M. cbn [app] in M. specialize (M eq_refl). rewrite app_length in M. cbn in M. lia.
Qed.
Lemma findAndReplaceAll_one c rep s :
  findAndReplaceAll s [c] rep = Ok (flat_map (fun x => if Ascii.eqb x c then rep else [x]) s).
Proof.
  destruct (findAndReplaceAll_replaced [c] rep s) as [r [R E]]; [discriminate|]. rewrite E. f_equal. now apply replaced_one.
Qed.

Lemma flat_map_flat_map {A B C} (f : A -> list B) (g : B -> list C) l :
  flat_map g (flat_map f l) = flat_map (fun a => flat_map g (f a)) l.
Proof. induction l as [|a l IH]; cbn [flat_map]; auto. now rewrite flat_map_app, IH. Qed.

Lemma gml_to_wkt_ok s : gml_to_wkt s = Ok (txt "POLYGON ((" ++ flat_map (fun c =>
  if Ascii.eqb c "," then txt " " else if Ascii.eqb c " " then txt ", " else if Ascii.eqb c ";" then txt " " else [c]) s ++ txt "))").
Proof.
  unfold gml_to_wkt. cbn [list_ascii_of_string]. rewrite !findAndReplaceAll_one. cbn [bind]. rewrite findAndReplaceAll_one. cbn [bind].
  rewrite findAndReplaceAll_one. cbn [bind]. rewrite !flat_map_flat_map. do 3 f_equal. apply flat_map_ext.
  intros c. destruct (Ascii.eqb c ",") eqn:E1; [reflexivity|]. cbn [flat_map app].
  destruct (Ascii.eqb c " ") eqn:E2; [reflexivity|]. cbn [flat_map app].
  destruct (Ascii.eqb c ";") eqn:E3; reflexivity.
Qed.

(** *** Joined texts *)
Lemma flat_map_joined (f : ascii -> text) sep l : flat_map f (joined sep l) = joined (flat_map f sep) (map (flat_map f) l).
Proof.
  induction l as [|a l IH]; [reflexivity|]. cbn [joined map]. destruct l as [|b l]; [reflexivity|].
  cbn [map] in *. rewrite !flat_map_app, IH. reflexivity.
Qed.

Lemma flat_map_id_on (f : ascii -> text) s : (forall c, In c s -> f c = [c]) -> flat_map f s = s.
Proof.
  induction s as [|c s IH]; intros H; [reflexivity|]. cbn [flat_map]. rewrite (H c) by now left. cbn [app]. f_equal. apply IH.
  intros x X; apply H; now right.
Qed.

(** *** Documents *)
Lemma is_text_true a b : is_text a b = true <-> a = b.
Proof. unfold is_text. destruct (list_eq_dec ascii_dec a b); split; intros; congruence. Qed.
Lemma is_text_refl a : is_text a a = true.
Proof. now apply is_text_true. Qed.

Lemma find_first {A} (f : A -> bool) a x b : f x = true -> (forall y, In y a -> f y = false) -> find f (a ++ x :: b) = Some x.
Proof.
  intros F. induction a as [|y a IH]; intros H; cbn [app find].
  - now rewrite F.
  - rewrite (H y) by now left. apply IH. intros z Z; apply H; now right.
Qed.

Lemma x_child_ok e k c : child e k c -> x_child e (txt k) = Some c.
Proof.
  intros [n [a [t [l [-> [u [v [-> [[a' [t' [l' ->]]] H]]]]]]]]]. cbn [x_child]. apply find_first.
  - cbn [x_name]. apply is_text_refl.
  - intros y Y. destruct (is_text (x_name y) (txt k)) eqn:E; auto. exfalso. apply is_text_true in E. apply (H y Y).
    destruct y as [n' a2 t2 l2]. cbn in E. subst. now exists a2, t2, l2.
Qed.
Lemma x_attr_ok e k v : attribute e k v -> x_attr e (txt k) = Some v.
Proof.
  intros [n [a [t [l [-> [u [w [-> [_ H]]]]]]]]]. cbn [x_attr]. rewrite (find_first _ u (txt k, v) w); [reflexivity| |].
  - apply is_text_refl.
  - intros y Y. destruct (is_text (fst y) (txt k)) eqn:E; auto. apply is_text_true in E. now exfalso; apply (H y Y).
Qed.
Lemma x_attr_or e k v : attribute_or_empty e k v -> match x_attr e (txt k) with Some v => v | None => [] end = v.
Proof.
  intros [H|[-> [n [a [t [l [-> H]]]]]]]; [now rewrite (x_attr_ok _ _ _ H)|]. cbn [x_attr].
  destruct (find (fun p => is_text (fst p) (txt k)) a) as [p|] eqn:F; [|reflexivity].
  apply List.find_some in F. destruct F as [I E]. apply is_text_true in E. now exfalso; apply (H p I).
Qed.

Lemma j_member_ok l k v : NoDup (map fst l) -> In (k, v) l -> j_member l k = Some v.
Proof.
  unfold j_member. intros N I. induction l as [|[k' v'] l IH]; [easy|]. cbn [map fst] in N. inversion N as [|? ? NI N']; subst.
  cbn [find fst]. destruct I as [I|I].
  - injection I as -> ->. rewrite is_text_refl. reflexivity.
  - destruct (is_text k' k) eqn:E.
    + apply is_text_true in E. subst k'. exfalso; apply NI. apply (in_map fst) in I. exact I.
    + now apply IH.
Qed.
Lemma j_key_ok j k v : member j k v -> j_key j (txt k) = Ok v.
Proof. intros [l [-> [N I]]]. cbn [j_key]. now rewrite (j_member_ok _ _ _ N I). Qed.
Lemma j_key_const_ok j k v : member j k v -> j_key_const j (txt k) = Ok v.
Proof. intros [l [-> [N I]]]. cbn [j_key_const]. now rewrite (j_member_ok _ _ _ N I). Qed.
Lemma j_double_ok j x : number j x -> j_double j = Ok x.
Proof. intros [[z [-> ->]]| ->]; reflexivity. Qed.

Lemma getPoint_ok j p : position j p -> getPointFromJson j = Ok p.
Proof.
  intros [[a [b [-> [A [B C]]]]]|[a [b [c [-> [A [B C]]]]]]]; unfold getPointFromJson; cbn [j_size length Nat.eqb].
  - cbn [j_idx_const]. unfold vec_index; cbn [nth_error bind]. rewrite (j_double_ok _ _ A); cbn [bind].
    rewrite (j_double_ok _ _ B); cbn [bind]. destruct p as [x y z]; cbn [px py pz] in *. now rewrite C.
  - cbn [j_idx_const]. unfold vec_index; cbn [nth_error bind]. rewrite (j_double_ok _ _ A); cbn [bind].
    rewrite (j_double_ok _ _ B); cbn [bind]. rewrite (j_double_ok _ _ C); cbn [bind]. now destruct p as [x y z].
Qed.

Lemma jsonToLine_ok j l : positions j l -> jsonToLine j = Ok l.
Proof.
  intros [items [-> H]]. unfold jsonToLine. cbn [j_items].
  assert (G : forall acc, foldM (fun l ps => do p <- getPointFromJson ps; Ok (l ++ [p])) items acc = Ok (acc ++ l)).
  { induction H as [|j p items l P H IH]; intros acc; cbn [foldM]; [now rewrite app_nil_r|].
    rewrite (getPoint_ok _ _ P). cbn [bind]. rewrite IH. now rewrite <- app_assoc. }
  apply (G []).
Qed.

Lemma mapM_ok {A B} (f : A -> outcome B) l l' : Forall2 (fun a b => f a = Ok b) l l' -> mapM f l = Ok l'.
Proof. induction 1 as [|a b l l' E H IH]; [reflexivity|]. cbn [mapM]. now rewrite E, IH. Qed.

Lemma rings_ok wkt rs rings : Forall2 positions rs rings ->
  foldM (fun c i => do j <- j_idx (JArr rs) i; do r <- jsonToLine j; Ok (cell_addRing RNum wkt c r)) (seq 0 (length rs)) [] =
  Ok (map (fun r => closeRing RNum (line_clone RNum wkt r)) rings).
Proof.
  intros H.
  assert (G : forall post rg done acc, Forall2 positions post rg -> rs = done ++ post ->
    foldM (fun c i => do j <- j_idx (JArr rs) i; do r <- jsonToLine j; Ok (cell_addRing RNum wkt c r)) (seq (length done) (length post)) acc =
    Ok (acc ++ map (fun r => closeRing RNum (line_clone RNum wkt r)) rg)).
  { induction post as [|j post IH]; intros rg done acc F E; inversion F as [|? r ? rg' P F']; subst.
    - cbn [length seq foldM map]. now rewrite app_nil_r.
    - cbn [length seq foldM]. replace (j_idx (JArr (done ++ j :: post)) (length done)) with (Ok j)
        by (cbn [j_idx]; rewrite nth_error_app2, Nat.sub_diag by lia; reflexivity).
      cbn [bind]. rewrite (jsonToLine_ok _ _ P). cbn [bind].
      specialize (IH rg' (done ++ [j]) (cell_addRing RNum wkt acc r) F').
      rewrite app_length, Nat.add_1_r in IH. rewrite IH by now rewrite <- app_assoc.
      cbn [map]. unfold cell_addRing. now rewrite <- app_assoc. }
  now apply (G rs rings [] []).
Qed.

Lemma getCell_ok wkt j rings : polygon j rings ->
  getCellFromJson wkt j = Ok (map (fun r => closeRing RNum (line_clone RNum wkt r)) rings).
Proof.
  intros [g [rs [G [C F]]]]. unfold getCellFromJson. rewrite (j_key_const_ok _ _ _ G). cbn [bind].
  rewrite (j_key_const_ok _ _ _ C). cbn [bind j_size]. now apply rings_ok.
Qed.

Lemma closing_ok (r : line RNum) : closing r (closeRing RNum r).
Proof.
  destruct (closeRing_spec r) as [C [E|[p [m [E [N K]]]]]]; (split; [exact C|]); [now left|right].
  split; auto. exists p, m. split; auto. rewrite K, E. reflexivity.
Qed.
