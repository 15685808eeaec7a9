(** Further theorems about the importers: what happens to documents of any shape
    (properties C164, C166, C182, C183). *)
From Coq Require Import Ascii String ZArith Bool Arith Lia Reals Lra List.
From Verif Require Import Outcome Num ListAux Point_Model Angle_Model Swath_Model Container_Model Container_Spec Container_Proofs
  Container_Props Text_Model Text_Spec Text_Proofs Field_Model Field_Spec Field_Proofs Field_Props Transform_Model
  Parser_Model Parser_Spec Parser_Proofs Parser_Props.
Import ListNotations.
Local Open Scope nat_scope.

(** A list, or an object, of [n] values. *)
Definition sized (j : json) (n : nat) : Prop := (exists l, j = JArr l /\ length l = n) \/ (exists l, j = JObj l /\ length l = n).
(** An object without the key. *)
Definition lacks (j : json) (k : string) : Prop := exists l, j = JObj l /\ ~ In (list_ascii_of_string k) (map fst l).
(** The first member with the key. *)
Definition holds (j : json) (k : string) (v : json) : Prop := exists l, j = JObj l /\
  first_with (fun p => fst p = list_ascii_of_string k) l (list_ascii_of_string k, v).
(** A normal return or an exception of the kind nlohmann::json throws. *)
Definition returns {A} (o : outcome A) : Prop := (exists a, o = Ok a) \/ o = Throw TypeError.

Lemma double_cases j : (exists x, number j x /\ j_double j = Ok x) \/ j_double j = Throw TypeError.
Proof.
  destruct j; auto; left; eexists; (split; [|reflexivity]); [left; eexists; split; reflexivity|right; reflexivity].
Qed.

(** C164: every JSON value is a position, or is taken for the origin because of its size,
    or is refused with a type_error. *)
Theorem json_point_cases : forall j,
  (forall p, position j p -> getPointFromJson j = Ok p) /\
  (~ sized j 2 -> ~ sized j 3 -> getPointFromJson j = Ok (mkPoint (N := RNum) 0%R 0%R 0%R)) /\
  (sized j 2 \/ sized j 3 -> ~ (exists p, position j p) -> getPointFromJson j = Throw TypeError).
Proof.
  intro j. split; [intros p; apply getPoint_ok|].
  assert (S : forall n, 1 < n -> (j_size j = n <-> sized j n)).
  { intros n Hn. split.
    - intro H. destruct j; cbn in H; try lia; [left|right]; eexists; split; try reflexivity; exact H.
    - intros [(l & -> & H)|(l & -> & H)]; exact H. }
  split.
  - intros H2 H3. unfold getPointFromJson. rewrite <- S in H2, H3 by lia.
    rewrite (proj2 (Nat.eqb_neq _ _) H3), (proj2 (Nat.eqb_neq _ _) H2). reflexivity.
  - intros HS NP. unfold getPointFromJson. destruct HS as [H|H].
    + rewrite (proj2 (S 2 ltac:(lia)) H). cbn [Nat.eqb]. destruct H as [(l & -> & L)|(l & -> & L)]; [|reflexivity].
      destruct l as [|a [|b [|c l]]]; try discriminate L. unfold j_idx_const, vec_index; cbn [nth_error bind].
      destruct (double_cases a) as [(x & A & ->)| ->]; [|reflexivity]. cbn [bind].
      destruct (double_cases b) as [(y & B & ->)| ->]; [|reflexivity]. exfalso. apply NP.
      exists (mkPoint (N := RNum) x y 0%R). left. exists a, b. auto.
    + rewrite (proj2 (S 3 ltac:(lia)) H). cbn [Nat.eqb]. destruct H as [(l & -> & L)|(l & -> & L)]; [|reflexivity].
      destruct l as [|a [|b [|c [|d l]]]]; try discriminate L. unfold j_idx_const, vec_index; cbn [nth_error bind].
      destruct (double_cases a) as [(x & A & ->)| ->]; [|reflexivity]. cbn [bind].
      destruct (double_cases b) as [(y & B & ->)| ->]; [|reflexivity]. cbn [bind].
      destruct (double_cases c) as [(z & C & ->)| ->]; [|reflexivity]. exfalso. apply NP.
      exists (mkPoint (N := RNum) x y z). right. exists a, b, c. auto.
Qed.
Print Assumptions json_point_cases.

Example json_point_cases_ex : (~ sized (JInt 7) 2 /\ ~ sized (JInt 7) 3) /\
  (sized (JArr [JInt 1; JStr (txt "2")]) 2 /\ ~ exists p, position (JArr [JInt 1; JStr (txt "2")]) p).
Proof.
  split; [split; intros [(l & H & _)|(l & H & _)]; discriminate|]. split; [left; eexists; split; reflexivity|].
  intros [p [(a & b & E & _ & [(z & B & _)|B] & _)|(a & b & c & E & _)]]; injection E; congruence.
Qed.

Lemma point_returns j : returns (getPointFromJson j).
Proof.
  destruct (json_point_cases j) as (A & B & C). unfold getPointFromJson in *.
  destruct j as [| | | | |l|l]; try (left; eexists; reflexivity).
  - destruct l as [|a [|b [|c [|d l]]]]; try (left; eexists; reflexivity); cbn [j_size length Nat.eqb j_idx_const];
      unfold vec_index; cbn [nth_error bind].
    + destruct (double_cases a) as [(x & _ & ->)| ->]; [|right; reflexivity]. destruct (double_cases b) as [(y & _ & ->)| ->]; [|right; reflexivity].
      left; eexists; reflexivity.
    + destruct (double_cases a) as [(x & _ & ->)| ->]; [|right; reflexivity]. destruct (double_cases b) as [(y & _ & ->)| ->]; [|right; reflexivity].
      destruct (double_cases c) as [(z & _ & ->)| ->]; [|right; reflexivity]. left; eexists; reflexivity.
  - destruct l as [|a [|b [|c [|d l]]]]; (left; eexists; reflexivity) || (right; reflexivity).
Qed.

Lemma foldM_returns {A B} (f : B -> A -> outcome B) l : (forall b a, returns (f b a)) -> forall b, returns (foldM f l b).
Proof.
  intro H. induction l as [|a l IH]; intro b; cbn [foldM]; [left; eexists; reflexivity|].
  destruct (H b a) as [[b' ->]| ->]; [apply IH|right; reflexivity].
Qed.

Lemma line_returns j : returns (jsonToLine j).
Proof.
  apply foldM_returns. intros l a. destruct (point_returns a) as [[p ->]| ->]; [left; eexists; reflexivity|right; reflexivity].
Qed.

Lemma member_cases l k : (exists v, holds (JObj l) k v /\ j_member l (txt k) = Some v) \/ (lacks (JObj l) k /\ j_member l (txt k) = None).
Proof.
  unfold j_member. induction l as [|[k' v'] l IH].
  - right. split; [|reflexivity]. exists []. split; [reflexivity|easy].
  - cbn [find fst]. destruct (is_text k' (txt k)) eqn:E.
    + left. apply is_text_true in E. subst k'. exists v'. split; [|reflexivity]. eexists; split; [reflexivity|].
      exists [], l. split; [reflexivity|]. split; [reflexivity|easy].
    + assert (NE : k' <> txt k) by (intro X; apply is_text_true in X; congruence).
      destruct IH as [(v & (l' & H & a & b & L & K & N) & M)|((l' & H & N) & M)]; rewrite M.
      * left. exists v. split; [|reflexivity]. injection H as <-. eexists; split; [reflexivity|]. exists ((k', v') :: a), b.
        split; [rewrite L; reflexivity|]. split; [exact K|]. intros y [<-|Y]; [exact NE|apply N; exact Y].
      * right. split; [|reflexivity]. injection H as <-. eexists; split; [reflexivity|]. intros [X|X]; [exact (NE X)|exact (N X)].
Qed.

Lemma holds_lacks j k v : holds j k v -> lacks j k -> False.
Proof.
  intros (l & -> & a & b & -> & _) (l' & E & N). injection E as <-. apply N. rewrite map_app. apply in_or_app. right. left. reflexivity.
Qed.
Lemma holds_unique j k v w : holds j k v -> holds j k w -> v = w.
Proof.
  intros (l & -> & a & b & -> & _ & Na) (l' & E & a' & b' & L & _ & Nb). injection E as E. rewrite <- E in L. clear E l'.
  revert a' L Nb. induction a as [|x a IH]; intros [|y a'] L Nb; cbn in L.
  - congruence.
  - injection L as L _. exfalso. apply (Nb y); [left; auto|]. rewrite <- L. reflexivity.
  - injection L as L _. exfalso. apply (Na x); [left; auto|]. rewrite L. reflexivity.
  - injection L as L1 L2. apply (IH (fun z Z => Na z (or_intror Z)) a' L2). intros z Z; apply Nb; right; exact Z.
Qed.

(** C166: reading a cell is undefined exactly when "geometry", or "coordinates" in it, is
    missing from an object; for all other documents a cell or a type_error comes back.
    Coordinates that are null give a cell without rings. *)
Theorem json_cell_defined : forall wkt j,
  (getCellFromJson wkt j = UB <-> lacks j "geometry" \/ exists g, holds j "geometry" g /\ lacks g "coordinates") /\
  (getCellFromJson wkt j = UB \/ returns (getCellFromJson wkt j)) /\
  (forall g, holds j "geometry" g -> holds g "coordinates" JNull -> getCellFromJson wkt j = Ok []).
Proof.
  intros wkt j.
  assert (T : forall rings, returns (foldM (fun c i => do j <- j_idx rings i; do r <- jsonToLine j; Ok (cell_addRing RNum wkt c r)) (seq 0 (j_size rings)) [])).
  { intro rings. apply foldM_returns. intros c i. assert (I : returns (j_idx rings i)).
    { destruct rings; (left; eexists; reflexivity) || (right; reflexivity). }
    destruct I as [[x ->]| ->]; [|right; reflexivity]. cbn [bind]. destruct (line_returns x) as [[r ->]| ->]; [left; eexists; reflexivity|right; reflexivity]. }
  assert (K : (lacks j "geometry" /\ getCellFromJson wkt j = UB) \/
    (exists g, holds j "geometry" g /\ lacks g "coordinates" /\ getCellFromJson wkt j = UB) \/
    (exists g rings, holds j "geometry" g /\ holds g "coordinates" rings /\ getCellFromJson wkt j =
       foldM (fun c i => do j <- j_idx rings i; do r <- jsonToLine j; Ok (cell_addRing RNum wkt c r)) (seq 0 (j_size rings)) []) \/
    (getCellFromJson wkt j = Throw TypeError /\ ((forall l, j <> JObj l) \/ exists g, holds j "geometry" g /\ forall l, g <> JObj l))).
  { unfold getCellFromJson. destruct j as [| | | | | |l]; try (right; right; right; split; [reflexivity|left; discriminate]).
    cbn [j_key_const]. destruct (member_cases l "geometry") as [(g & H & ->)|(H & ->)]; cbn [deref bind]; [|left; auto].
    right. destruct g as [| | | | | |m]; try (right; right; split; [reflexivity|right; eexists; split; [exact H|discriminate]]).
    cbn [j_key_const]. destruct (member_cases m "coordinates") as [(r & H' & ->)|(H' & ->)]; cbn [deref bind].
    - right. left. exists (JObj m), r. auto.
    - left. exists (JObj m). auto. }
  assert (R : forall A (o : outcome A), returns o -> o <> UB) by (intros A o [[a ->]| ->]; discriminate).
  destruct K as [(H & E)|[(g & H & H' & E)|[(g & r & H & H' & E)|(E & H)]]].
  - split; [split; auto|]. split; [left; exact E|]. intros g G _. exfalso. exact (holds_lacks _ _ _ G H).
  - split; [split; eauto|]. split; [left; exact E|]. intros g' G G'. exfalso.
    rewrite (holds_unique _ _ _ _ G H) in G'. exact (holds_lacks _ _ _ G' H').
  - split; [|split].
    + split; [rewrite E; intro X; exfalso; exact (R _ _ (T r) X)|]. intros [X|(g' & X & Y)]; exfalso.
      * exact (holds_lacks _ _ _ H X).
      * rewrite (holds_unique _ _ _ _ X H) in Y. exact (holds_lacks _ _ _ H' Y).
    + right. rewrite E. apply T.
    + intros g' G G'. rewrite (holds_unique _ _ _ _ G H) in G'. rewrite E, (holds_unique _ _ _ _ H' G'). reflexivity.
  - split; [|split].
    + split; [rewrite E; discriminate|]. intros [X|(g' & G & X)]; exfalso.
      * destruct H as [H|(g & G & _)]; [destruct X as (l & X & _); exact (H _ X)|exact (holds_lacks _ _ _ G X)].
      * destruct X as (l & X & _). destruct H as [H|(g & G' & H)]; [destruct G as (m & Hj & _); exact (H _ Hj)|].
        rewrite (holds_unique _ _ _ _ G' G) in H. exact (H _ X).
    + right. right. exact E.
    + intros g G (l & X & _). exfalso. destruct H as [H|(g' & G' & H)]; [destruct G as (m & Hj & _); exact (H _ Hj)|].
      rewrite (holds_unique _ _ _ _ G' G) in H. exact (H _ X).
Qed.
Print Assumptions json_cell_defined.

Example json_cell_defined_ex : lacks (JObj [(txt "type", JStr (txt "Feature"))]) "geometry" /\
  exists g, holds (JObj [(txt "geometry", g)]) "geometry" g /\ holds g "coordinates" JNull.
Proof.
  split; [eexists; split; [reflexivity|]; intros [X|[]]; discriminate X|].
  exists (JObj [(txt "coordinates", JNull)]). split; (eexists; split; [reflexivity|]; exists [], []; split; [reflexivity|]; split; [reflexivity|easy]).
Qed.

(** The values a loop over [j] visits. *)
Definition part (j x : json) : Prop :=
  (exists l, j = JArr l /\ In x l) \/ (exists l k, j = JObj l /\ In (k, x) l) \/
  (x = j /\ j <> JNull /\ (forall l, j <> JArr l) /\ forall l, j <> JObj l).

Lemma items_part j x : In x (j_items j) <-> part j x.
Proof.
  split.
  - intro H. destruct j; cbn in H; try (destruct H as [<-|[]]; right; right; repeat split; discriminate); [destruct H|left; eauto|].
    right. left. apply in_map_iff in H. destruct H as ([k v] & <- & H). eauto.
  - intros [(l & -> & H)|[(l & k & -> & H)|(-> & H1 & H2 & H3)]]; cbn; auto.
    + apply in_map_iff. exists (k, x). auto.
    + destruct j; cbn; auto; exfalso; [eapply H2; eauto|eapply H3; eauto].
Qed.

Lemma key_returns j k : returns (j_key j k).
Proof. destruct j; (left; eexists; reflexivity) || (right; reflexivity). Qed.

Lemma field_make_defined wkt c id : (exists f, field_make RNum wkt [c] id = Ok f) \/ field_make RNum wkt [c] id = Throw OutOfRange.
Proof.
  unfold field_make. destruct (cells_isEmpty RNum [c]) eqn:E; cbn [negb bind]; [left; eexists; reflexivity|].
  unfold cells_getCellBorder, vec_index. cbn [nth_error bind]. destruct c as [|r c]; [discriminate E|]. cbn [nth_error bind].
  unfold ring_startPoint. destruct r as [|p r]; [right; reflexivity|left; eexists; reflexivity].
Qed.

Lemma field_of_json_defined wkt j : field_of_json wkt j = UB -> getCellFromJson wkt j = UB.
Proof.
  unfold field_of_json. destruct (json_cell_defined wkt j) as (_ & [E|[[c ->]| ->]] & _); [auto| |discriminate]. cbn [bind].
  destruct (key_returns j (txt "properties")) as [[p ->]| ->]; [|discriminate]. cbn [bind].
  destruct (key_returns p (txt "Name")) as [[n ->]| ->]; [|discriminate]. cbn [bind].
  destruct n; try discriminate. cbn [j_string bind]. destruct (field_make_defined wkt c s) as [[f ->]| ->]; discriminate.
Qed.
Lemma field_of_json_ends wkt j : field_of_json wkt j <> Hang.
Proof.
  unfold field_of_json. destruct (json_cell_defined wkt j) as (_ & [->|[[c ->]| ->]] & _); try discriminate. cbn [bind].
  destruct (key_returns j (txt "properties")) as [[p ->]| ->]; [|discriminate]. cbn [bind].
  destruct (key_returns p (txt "Name")) as [[n ->]| ->]; [|discriminate]. cbn [bind].
  destruct n; try discriminate. cbn [j_string bind]. destruct (field_make_defined wkt c s) as [[f ->]| ->]; discriminate.
Qed.

(** C166: and coordinates that are neither an array nor null nor an empty object are
    refused. *)
Theorem json_cell_scalar : forall wkt j g rings,
  holds j "geometry" g -> holds g "coordinates" rings -> rings <> JNull -> rings <> JObj [] -> (forall l, rings <> JArr l) ->
  getCellFromJson wkt j = Throw TypeError.
Proof.
  intros wkt j g rings H H' N1 N2 N3. unfold getCellFromJson. destruct H as (l & -> & H). destruct H' as (m & -> & H').
  cbn [j_key_const]. destruct (member_cases l "geometry") as [(g' & G & E)|(G & _)].
  2: { exfalso. apply (holds_lacks (JObj l) "geometry" (JObj m)); [exists l; auto|exact G]. }
  assert (g' = JObj m) by (apply (holds_unique (JObj l) "geometry"); [exact G|exists l; auto]). subst g'.
  rewrite E. cbn [deref bind j_key_const]. destruct (member_cases m "coordinates") as [(r' & G' & E')|(G' & _)].
  2: { exfalso. apply (holds_lacks (JObj m) "coordinates" rings); [exists m; auto|exact G']. }
  assert (r' = rings) by (apply (holds_unique (JObj m) "coordinates"); [exact G'|exists m; auto]). subst r'.
  rewrite E'. cbn [deref bind]. destruct rings as [| | | | |a|o]; try congruence; try reflexivity.
  destruct o as [|x o]; [congruence|reflexivity].
Qed.
Print Assumptions json_cell_scalar.

Example json_cell_scalar_ex :
  getCellFromJson (fun p => p) (JObj [(txt "geometry", JObj [(txt "coordinates", JStr (txt "none"))])]) = Throw TypeError.
Proof. reflexivity. Qed.

(** C182: importJson keeps the fields it was given and appends behind them, whatever the
    document; it always ends, and it is only undefined when a feature has no geometry
    or a geometry no coordinates. *)
Theorem json_fields_defined : forall wkt doc fields, exists new,
  fst (importJson wkt doc fields) = fields ++ new /\
  snd (importJson wkt doc fields) <> Hang /\
  (snd (importJson wkt doc fields) = UB -> exists l j, holds doc "features" l /\ part l j /\
     (lacks j "geometry" \/ exists g, holds j "geometry" g /\ lacks g "coordinates")).
Proof.
  intros wkt doc fields.
  assert (P : forall items fields, exists new, fst (push_fields wkt items fields) = fields ++ new /\
    snd (push_fields wkt items fields) <> Hang /\
    (snd (push_fields wkt items fields) = UB -> exists j, In j items /\ getCellFromJson wkt j = UB)).
  { clear. induction items as [|j items IH]; intro fields; cbn [push_fields].
    - exists []. cbn. rewrite app_nil_r. repeat split; discriminate.
    - pose proof (field_of_json_defined wkt j) as D. pose proof (field_of_json_ends wkt j) as N.
      destruct (field_of_json wkt j) as [f|e| |]; [|exists []; cbn; rewrite app_nil_r; repeat split; try discriminate..|congruence].
      + destruct (IH (fields ++ [f])) as (new & A & B & C). exists (f :: new). split; [rewrite A, <- app_assoc; reflexivity|]. split; [exact B|].
        intro U. destruct (C U) as (x & X & Y). exists x. split; [right; exact X|exact Y].
      + intros _. exists j. split; [left; reflexivity|auto]. }
  unfold importJson. destruct doc as [| | | | | |m]; cbn [j_key];
    try (exists []; cbn; rewrite app_nil_r; repeat split; discriminate).
  destruct (member_cases m "features") as [(l & H & ->)|(H & ->)].
  - destruct (P (j_items l) fields) as (new & A & B & C). exists new. split; [exact A|]. split; [exact B|].
    intro U. destruct (C U) as (j & I & J). exists l, j. split; [exact H|]. split; [apply items_part; exact I|].
    apply (json_cell_defined wkt j). exact J.
  - exists []. cbn. rewrite app_nil_r. repeat split; discriminate.
Qed.
Print Assumptions json_fields_defined.
Example json_fields_defined_ex : snd (importJson (fun p => p) (JObj [(txt "features", JArr [JObj []])]) []) = UB.
Proof. reflexivity. Qed.

(** C182: a document without features adds nothing; one that is no object is refused. *)
Theorem json_fields_none : forall wkt doc fields,
  (doc = JNull \/ lacks doc "features" \/ holds doc "features" JNull -> importJson wkt doc fields = (fields, Ok tt)) /\
  (doc <> JNull -> (forall l, doc <> JObj l) -> importJson wkt doc fields = (fields, Throw TypeError)).
Proof.
  intros wkt doc fields. split.
  - intros [->|[H|H]]; [reflexivity| |]; unfold importJson; destruct H as (m & -> & H); cbn [j_key];
      (destruct (member_cases m "features") as [(l & K & ->)|(K & ->)]).
    + exfalso. eapply holds_lacks; [exact K|]. exists m. auto.
    + reflexivity.
    + assert (Q : holds (JObj m) "features" JNull) by (exists m; auto). rewrite (holds_unique _ _ _ _ K Q). reflexivity.
    + exfalso. eapply holds_lacks; [|exact K]. exists m. split; [reflexivity|exact H].
  - intros H1 H2. unfold importJson. destruct doc; try reflexivity; [congruence|exfalso; eapply H2; eauto].
Qed.
Print Assumptions json_fields_none.

Example json_fields_none_ex : lacks (JObj []) "features" /\ JArr [] <> JNull /\ forall l, JArr [] <> JObj l.
Proof. split; [eexists; split; [reflexivity|easy]|]. split; discriminate. Qed.

(** [n] is [x] cut at the point. *)
Definition cut (x : R) (n : Z) : Prop := (0 <= x /\ IZR n <= x < IZR n + 1 \/ x <= 0 /\ IZR n - 1 < x <= IZR n)%R.

Lemma trunc_cut x n : cut x n -> (if Rleb 0 x then Int_part x else (- Int_part (- x))%Z) = n.
Proof.
  assert (U : forall y m, (IZR m <= y < IZR m + 1)%R -> Int_part y = m).
  { intros y m H. pose proof (base_Int_part y) as [A B]. assert (Int_part y < m + 1)%Z by (apply lt_IZR; rewrite plus_IZR; lra).
    assert (m < Int_part y + 1)%Z by (apply lt_IZR; rewrite plus_IZR; lra). lia. }
  unfold cut, Rleb. intro C. destruct (Rle_dec 0 x) as [P|P].
  - apply U. destruct C as [C|C]; [lra|]. assert (x = 0)%R by lra. subst x.
    assert (-1 < n)%Z by (apply lt_IZR; lra). assert (n < 1)%Z by (apply lt_IZR; lra). assert (n = 0)%Z by lia. subst n. lra.
  - destruct C as [C|C]; [lra|]. rewrite (U (- x)%R (- n)%Z); [lia|]. rewrite opp_IZR. lra.
Qed.

(** C183: the number of a swath: integers are reduced to 32 bits, other numbers cut at
    the point (undefined outside the range of int), booleans are 0 and 1, and anything
    else throws. *)
Theorem json_swath_number : forall j pts w v,
  (exists g c, member j "geometry" g /\ member g "coordinates" c /\ positions c pts) ->
  (exists jw, property j "width" jw /\ number jw w) -> (0 < w)%R -> property j "path_id" v ->
  let made i := Ok (mkSwath rpoint R i pts w true MAINLAND) in
  (forall z, v = JInt z -> exists i q, swath_of_json j = made i /\ (- 2 ^ 31 <= i < 2 ^ 31)%Z /\ z = (i + q * 2 ^ 32)%Z) /\
  (forall x n, v = JFloat x -> cut x n -> swath_of_json j = if ((- 2 ^ 31 <=? n) && (n <? 2 ^ 31))%Z then made n else UB) /\
  (v = JBool false -> swath_of_json j = made 0%Z) /\ (v = JBool true -> swath_of_json j = made 1%Z) /\
  (v = JNull \/ (exists s, v = JStr s) \/ (exists l, v = JArr l) \/ (exists l, v = JObj l) -> swath_of_json j = Throw TypeError).
Proof.
  intros j pts w v (g & c & G & C & P) (jw & (p & Mp & Mw) & N) W (p' & Mp' & Mv) made.
  assert (E : swath_of_json j = do i <- j_int v; made i).
  { unfold swath_of_json. rewrite (j_key_ok _ _ _ G). cbn [bind]. rewrite (j_key_ok _ _ _ C). cbn [bind]. rewrite (jsonToLine_ok _ _ P). cbn [bind].
    pose proof (j_key_ok _ _ _ Mp) as K. rewrite (j_key_ok _ _ _ Mp') in K. injection K as K. subst p'.
    rewrite (j_key_ok _ _ _ Mp). cbn [bind]. rewrite (j_key_ok _ _ _ Mw). cbn [bind]. rewrite (j_double_ok _ _ N). cbn [bind].
    rewrite (j_key_ok _ _ _ Mv). cbn [bind]. destruct (j_int v); try reflexivity. cbn [bind]. unfold swath_new, swath_setWidth, made.
    unfold w_nonpos. unfold Rleb. destruct (Rle_dec w 0); [lra|reflexivity]. }
  rewrite E. split; [|split; [|split; [|split]]].
  - intros z ->. cbn [j_int bind]. exists ((z + 2 ^ 31) mod 2 ^ 32 - 2 ^ 31)%Z, ((z + 2 ^ 31) / 2 ^ 32)%Z. split; [reflexivity|].
    pose proof (Z.mod_pos_bound (z + 2 ^ 31) (2 ^ 32) eq_refl). pose proof (Z.div_mod (z + 2 ^ 31) (2 ^ 32) ltac:(discriminate)). lia.
  - intros x n -> K. cbn [j_int]. rewrite (trunc_cut x n K). destruct ((- 2 ^ 31 <=? n) && (n <? 2 ^ 31))%Z; reflexivity.
  - intros ->. reflexivity.
  - intros ->. reflexivity.
  - intros [->|[[s ->]|[[l ->]|[l ->]]]]; reflexivity.
Qed.
Print Assumptions json_swath_number.

Example json_swath_number_ex : cut (-7 / 2) (-3) /\ cut (7 / 2) 3 /\ cut 3000000000 3000000000.
Proof. unfold cut. repeat split; [right|left|left]; lra. Qed.
