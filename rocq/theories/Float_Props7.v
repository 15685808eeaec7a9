(** The order of points in double precision. *)
From Coq Require Import ZArith Bool Lia Reals Lra Floats SpecFloat FloatAxioms.
From Verif Require Import Num Point_Model Angle_Spec Codec_Spec Codec_Proofs3 FloatErr_Proofs Float_Props Float_Props4.
Local Open Scope R_scope.

Lemma compare_flip a b : SFcompare b a = match SFcompare a b with Some c => Some (CompOpp c) | None => None end.
Proof.
  destruct a as [s|s| |s m e], b as [t|t| |t n k]; cbn [SFcompare]; try (destruct s; reflexivity); try (destruct t; reflexivity); try reflexivity.
  - destruct s, t; reflexivity.
  - destruct s, t; try reflexivity; rewrite (Z.compare_antisym e k); destruct (Z.compare e k); try reflexivity; cbn [CompOpp].
    + change (Pos.compare_cont Eq n m) with (Pos.compare n m). change (Pos.compare_cont Eq m n) with (Pos.compare m n).
      rewrite (Pos.compare_antisym m n). reflexivity.
    + change (Pos.compare_cont Eq n m) with (Pos.compare n m). change (Pos.compare_cont Eq m n) with (Pos.compare m n).
      rewrite (Pos.compare_antisym m n). reflexivity.
Qed.

Lemma eqb_value f g x y : is_value f x -> is_value g y -> ((f =? g)%float = true <-> x = y).
Proof.
  intros F G. pose proof (ltb_ok f g x y F G) as L1. pose proof (ltb_ok g f y x G F) as L2.
  rewrite ltb_spec in L1, L2. rewrite eqb_spec. unfold SFltb, SFeqb in *. rewrite compare_flip in L2.
  destruct (SFcompare (Prim2SF f) (Prim2SF g)) as [c|] eqn:C.
  - destruct c; cbn [CompOpp] in L2.
    + split; [intros _|reflexivity]. destruct (Rtotal_order x y) as [H|[H|H]]; auto; [apply L1 in H|apply L2 in H]; discriminate.
    + assert (x < y) by (apply L1; reflexivity). split; [discriminate|intro; lra].
    + assert (y < x) by (apply L2; reflexivity). split; [discriminate|intro; lra].
  - exfalso. unfold is_value in F, G. destruct (Prim2SF f) as [s|s| |s m e], (Prim2SF g) as [t|t| |t n k]; cbn [sf_value] in F, G; try contradiction; cbn [SFcompare] in C; try discriminate;
    destruct s; try destruct t; try discriminate; destruct (Z.compare e k); discriminate.
Qed.

(** C322: operator< of Point.cpp:52-55 is the order by x, then y, of the numbers that finite
    doubles stand for, both zeros being one number. *)
Theorem less_float : forall (a b : point FNum) (A B : pt), value_pt a A -> value_pt b B ->
  (p_lt FNum a b = true <-> px A < px B \/ px A = px B /\ py A < py B).
Proof.
  intros a b A B (A1 & A2 & _) (B1 & B2 & _). unfold p_lt. rewrite orb_true_iff, andb_true_iff.
  pose proof (ltb_ok _ _ _ _ A1 B1) as L1. pose proof (ltb_ok _ _ _ _ A2 B2) as L2. pose proof (eqb_value _ _ _ _ A1 B1) as L3.
  cbn [nltb neqb FNum]. rewrite <- L1, <- L2, <- L3. reflexivity.
Qed.
Print Assumptions less_float.

(* Not vacuous: (-0, 0) is before (0, 1). *)
Example less_float_ex : exists (a b : point FNum) (A B : pt), value_pt a A /\ value_pt b B /\ p_lt FNum a b = true /\ px A = px B.
Proof.
  exists (mkPoint (N := FNum) (-0)%float 0%float 0%float), (mkPoint (N := FNum) 0%float 1%float 0%float), (mkPoint (N := RNum) 0 0 0), (mkPoint (N := RNum) 0 1 0).
  split; [split; [|split; exact nil_value]|].
  - unfold is_value. replace (Prim2SF (px (mkPoint (N := FNum) (-0)%float 0%float 0%float))) with (S754_zero true) by (vm_compute; reflexivity). reflexivity.
  - split; [split; [exact nil_value|split; [exact one_value|exact nil_value]]|]. split; [vm_compute; reflexivity|reflexivity].
Qed.

(** C322: on all doubles it is no strict weak order, which std::sort, std::set and std::map
    require: a point without a number as x is equivalent to two points that are ordered. *)
Theorem less_float_refuted : exists p q r : point FNum,
  p_lt FNum p q = false /\ p_lt FNum q p = false /\ p_lt FNum q r = false /\ p_lt FNum r q = false /\ p_lt FNum p r = true.
Proof.
  exists (mkPoint (N := FNum) 0%float 0%float 0%float), (mkPoint (N := FNum) nan 0%float 0%float), (mkPoint (N := FNum) 1%float 0%float 0%float).
  repeat split; vm_compute; reflexivity.
Qed.
Print Assumptions less_float_refuted.

(** C322: what is left on all doubles: no point is before itself, and no two before each other. *)
Theorem less_float_any : forall a b : point FNum, p_lt FNum a a = false /\ (p_lt FNum a b = true -> p_lt FNum b a = false).
Proof.
  assert (AS : forall f g, (f <? g)%float = true -> (g <? f)%float = false /\ (g =? f)%float = false).
  { intros f g H. rewrite ltb_spec in H |- *. rewrite eqb_spec. unfold SFltb, SFeqb in *. rewrite compare_flip. destruct (SFcompare (Prim2SF f) (Prim2SF g)) as [[]|]; try discriminate. auto. }
  assert (ES : forall f g, (f =? g)%float = true -> (g <? f)%float = false).
  { intros f g H. rewrite eqb_spec in H. rewrite ltb_spec. unfold SFltb, SFeqb in *. rewrite compare_flip. destruct (SFcompare (Prim2SF f) (Prim2SF g)) as [[]|]; try discriminate. auto. }
  assert (T : forall a b : point FNum, p_lt FNum a b = true -> p_lt FNum b a = false).
  { intros a b H. unfold p_lt in *. cbn [nltb neqb FNum] in *. apply orb_prop in H. destruct H as [H|H].
    - destruct (AS _ _ H) as [-> ->]. reflexivity.
    - apply andb_prop in H. destruct H as [H1 H2]. rewrite (ES _ _ H1). destruct (AS _ _ H2) as [-> _]. rewrite andb_false_r. reflexivity. }
  intros a b. split; [|apply T]. destruct (p_lt FNum a a) eqn:E; auto. pose proof (T _ _ E). congruence.
Qed.
Print Assumptions less_float_any.
Example less_float_any_ex : p_lt FNum (mkPoint (N := FNum) 0%float nan 0%float) (mkPoint (N := FNum) infinity nan 0%float) = true.
Proof. vm_compute. reflexivity. Qed.
