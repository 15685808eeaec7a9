(** Proofs about drawings. *)
From Coq Require Import List Arith Lia ZArith Bool Reals Lra.
From Verif Require Import Outcome Num ListAux Point_Model Swath_Model Swath_Proofs3 Route_Model Path_Model Container_Model
  Container_Proofs Field_Model Vis_Model Vis_Spec.
Import ListNotations.
Local Open Scope nat_scope.

(** *** Loops *)
Lemma mapM_seq {B} (f : nat -> outcome B) : forall n k, (forall i, k <= i < k + n -> exists b, f i = Ok b) ->
  exists l, mapM f (seq k n) = Ok l /\ length l = n /\ forall i b, nth_error l i = Some b -> f (k + i) = Ok b.
Proof.
  induction n as [|n IH]; intros k H; cbn [seq mapM].
  - exists []. split; [reflexivity|]. split; [reflexivity|]. intros [|i] b E; discriminate.
  - destruct (H k) as [b E]; [lia|]. destruct (IH (S k)) as [l [E' [L N]]]; [intros; apply H; lia|].
    exists (b :: l). rewrite E; cbn [bind]. rewrite E'; cbn [bind length]. split; [reflexivity|]. split; [now rewrite L|].
    intros [|i] c Ec; cbn [nth_error] in Ec; [injection Ec as <-; now rewrite Nat.add_0_r|].
    rewrite <- Nat.add_succ_comm. now apply N.
Qed.

Lemma mapM_seq_ub {B} (f : nat -> outcome B) : forall n k m, (forall i, k <= i < k + m -> exists b, f i = Ok b) -> f (k + m) = UB -> m < n ->
  mapM f (seq k n) = UB.
Proof.
  induction n as [|n IH]; intros k m H U L; [lia|]. cbn [seq mapM]. destruct m as [|m].
  - rewrite Nat.add_0_r in U. now rewrite U.
  - destruct (H k) as [b E]; [lia|]. rewrite E; cbn [bind]. rewrite (IH (S k) m); [reflexivity| | |lia].
    + intros; apply H; lia.
    + now rewrite Nat.add_succ_comm.
Qed.

Lemma draw_ok {N : Num} {A} (P : nat -> A -> list (drawn N) -> Prop) (f : nat -> outcome (list (drawn N))) (l : list A) :
  (forall i x, nth_error l i = Some x -> exists ds, f i = Ok ds /\ P i x ds) ->
  exists ds, draw_all N f (seq 0 (length l)) = Ok ds /\ one_by_one P l ds.
Proof.
  intros H. destruct (mapM_seq f (length l) 0) as [ch [E [L Nn]]].
  - intros i I. destruct (nth_error l i) as [x|] eqn:X; [|apply nth_error_None in X; lia].
    destruct (H i x X) as [ds [Ed _]]. now exists ds.
  - unfold draw_all. rewrite E; cbn [bind]. eexists; split; [reflexivity|]. exists ch. split; [reflexivity|]. split; [exact L|].
    intros i x c X C. apply Nn in C. destruct (H i x X) as [ds [Ed Pd]]. cbn [Nat.add] in C. rewrite Ed in C. now injection C as <-.
Qed.

Lemma draw_each {N : Num} {A} (P : A -> list (drawn N) -> Prop) (f : A -> outcome (list (drawn N))) (l : list A) :
  (forall x, In x l -> exists ds, f x = Ok ds /\ P x ds) ->
  exists ds, draw_all N f l = Ok ds /\ one_by_one (fun _ => P) l ds.
Proof.
  intros H. unfold draw_all. enough (G : exists ch, mapM f l = Ok ch /\ length ch = length l /\
    forall i x c, nth_error l i = Some x -> nth_error ch i = Some c -> P x c).
  { destruct G as [ch [-> [L G]]]. cbn [bind]. eexists; split; [reflexivity|]. exists ch. auto. }
  induction l as [|x l IH]; cbn [mapM].
  - exists []. split; [reflexivity|]. split; [reflexivity|]. intros [|i] x c E; discriminate.
  - destruct (H x (or_introl eq_refl)) as [ds [E Pd]]. destruct IH as [ch [E' [L G]]]; [intros; apply H; now right|].
    rewrite E; cbn [bind]. rewrite E'; cbn [bind]. exists (ds :: ch). split; [reflexivity|]. split; [cbn [length]; now rewrite L|].
    intros [|i] y c Y C; cbn [nth_error] in Y, C; [injection Y as <-; injection C as <-; exact Pd|]. exact (G i y c Y C).
Qed.

Lemma draw_ub {N : Num} (f : nat -> outcome (list (drawn N))) n m :
  (forall i, i < m -> exists ds, f i = Ok ds) -> f m = UB -> m < n -> draw_all N f (seq 0 n) = UB.
Proof. intros H U L. unfold draw_all. rewrite (mapM_seq_ub f n 0 m); auto. intros i I. apply H; lia. Qed.

(** *** Lines and swaths *)
Lemma plot_line_spec {N : Num} (l : list (point N)) c : exists d, plot_line N l c = Ok [d] /\ curve_through l c d.
Proof.
  eexists; split; [reflexivity|]. split; [reflexivity|]. split; [reflexivity|]. cbn [dr_color]. split; intros L.
  - apply Nat.leb_le in L. now rewrite L.
  - apply Nat.leb_gt in L. now rewrite L.
Qed.

Lemma two_at_end {A} (l : list A) : 2 <= length l -> exists m a b, l = m ++ [a; b].
Proof.
  intros L. destruct (rev l) as [|b [|a r]] eqn:E.
  - apply (f_equal (@length A)) in E. rewrite rev_length in E. cbn in E. lia.
  - apply (f_equal (@length A)) in E. rewrite rev_length in E. cbn in E. lia.
  - exists (rev r), a, b. rewrite <- (rev_involutive l), E. cbn [rev]. now rewrite <- app_assoc.
Qed.

Lemma plot_swath_spec {N : Num} (s : swath (point N) N) c : exists ds, plot_swath N s c = Ok ds /\ with_arrow (sw_path s) c ds.
Proof.
  unfold plot_swath. destruct (length (sw_path s) <? 2) eqn:L.
  - apply Nat.ltb_lt in L. exists []. split; [reflexivity|]. left; auto.
  - apply Nat.ltb_ge in L. destruct (two_at_end (sw_path s) L) as [m [a [b E]]].
    destruct (plot_line_spec (sw_path s) c) as [d [-> D]]; cbn [bind].
    assert (LE : length (sw_path s) = length m + 2) by (rewrite E, app_length; reflexivity).
    assert (X : forall f, coord N f (sw_path s) (length (sw_path s) - 2) = Ok (f a)).
    { intros f. unfold coord, vec_index. rewrite LE. replace (length m + 2 - 2) with (length m) by lia. rewrite E.
      rewrite nth_error_app2, Nat.sub_diag by lia. reflexivity. }
    assert (Y : forall f, coord N f (sw_path s) (length (sw_path s) - 1) = Ok (f b)).
    { intros f. unfold coord, vec_index. rewrite LE. replace (length m + 2 - 1) with (length m + 1) by lia. rewrite E.
      rewrite nth_error_app2 by lia. replace (length m + 1 - length m) with 1 by lia. reflexivity. }
    rewrite !X, !Y; cbn [bind]. eexists; split; [reflexivity|]. right. exists m, a, b, d. split; [exact E|]. split; [exact D|]. reflexivity.
Qed.

(** *** Colours *)
Lemma linspace_length {N : Num} (a b : N) n : length (linspace N a b n) = n.
Proof. unfold linspace. now rewrite map_length, seq_length. Qed.

Lemma index_lt {A} (l : list A) i : i < length l -> exists x, vec_index l i = Ok x /\ nth_error l i = Some x.
Proof. intros L. unfold vec_index. destruct (nth_error l i) as [x|] eqn:E; [now exists x|apply nth_error_None in E; lia]. Qed.

Lemma color_linspace_spec {N : Num} (a b : list Z) n : 3 <= length a -> 3 <= length b -> exists l, color_linspace N a b n = Ok l /\
  length l = n /\ forall i c, nth_error l i = Some c -> exists r g bl r0 r1 g0 g1 b0 b1,
    c = [ndiv N r (nofZ N 255); ndiv N g (nofZ N 255); ndiv N bl (nofZ N 255)] /\
    nth_error a 0 = Some r0 /\ nth_error a 1 = Some g0 /\ nth_error a 2 = Some b0 /\
    nth_error b 0 = Some r1 /\ nth_error b 1 = Some g1 /\ nth_error b 2 = Some b1 /\
    nth_error (linspace N (nofZ N r0) (nofZ N r1) n) i = Some r /\
    nth_error (linspace N (nofZ N g0) (nofZ N g1) n) i = Some g /\
    nth_error (linspace N (nofZ N b0) (nofZ N b1) n) i = Some bl.
Proof.
  intros A B. destruct a as [|r0 [|g0 [|b0 a]]]; cbn [length] in A; try lia.
  destruct b as [|r1 [|g1 [|b1 b]]]; cbn [length] in B; try lia.
  unfold color_linspace. cbn [vec_index nth_error bind].
  match goal with |- exists l, mapM ?f _ = _ /\ _ => destruct (mapM_seq f n 0) as [l [E [L Nn]]] end.
  - intros i I. destruct (index_lt (linspace N (nofZ N r0) (nofZ N r1) n) i) as [r [Er _]]; [rewrite linspace_length; lia|].
    destruct (index_lt (linspace N (nofZ N g0) (nofZ N g1) n) i) as [g [Eg _]]; [rewrite linspace_length; lia|].
    destruct (index_lt (linspace N (nofZ N b0) (nofZ N b1) n) i) as [bl [Eb _]]; [rewrite linspace_length; lia|].
    rewrite Er, Eg, Eb; cbn [bind]. eexists; reflexivity.
  - exists l. split; [exact E|]. split; [exact L|]. intros i c C.
    assert (I : i < n) by (rewrite <- L; apply nth_error_Some; rewrite C; discriminate).
    apply Nn in C. cbn [Nat.add] in C.
    destruct (index_lt (linspace N (nofZ N r0) (nofZ N r1) n) i) as [r [Er Fr]]; [rewrite linspace_length; lia|].
    destruct (index_lt (linspace N (nofZ N g0) (nofZ N g1) n) i) as [g [Eg Fg]]; [rewrite linspace_length; lia|].
    destruct (index_lt (linspace N (nofZ N b0) (nofZ N b1) n) i) as [bl [Eb Fb]]; [rewrite linspace_length; lia|].
    rewrite Er, Eg, Eb in C; cbn [bind] in C. injection C as <-.
    exists r, g, bl, r0, r1, g0, g1, b0, b1. cbn [nth_error]. repeat split; assumption.
Qed.

Lemma colors_or_length {N : Num} (given : list (list N)) n : exists l, colors_or N given n = Ok l /\
  (given <> [] -> l = given) /\ (given = [] -> length l = n).
Proof.
  destruct given as [|c given]; cbn [colors_or].
  - destruct (color_linspace_spec (N := N) green dark n) as [l [E [L _]]]; [cbn; lia|cbn; lia|]. exists l. split; [exact E|]. split; [congruence|auto].
  - eexists; split; [reflexivity|]. split; auto. discriminate.
Qed.

(** *** Paths *)
Definition states_xy {N : Num} (cosf sinf : N -> N) (g : list (pstate N)) : list N * list N :=
  (flat_map (fun s => [px (ps_point s); px (ps_atEnd N cosf sinf s)]) g,
   flat_map (fun s => [py (ps_point s); py (ps_atEnd N cosf sinf s)]) g).

Lemma step_xy {N : Num} cosf sinf done (m : list (pstate N)) t d s :
  section_step N cosf sinf (mkSections N done (states_xy cosf sinf m) t d) s =
  if negb (ps_type s =? t)%Z || negb (ps_dir s =? d)%Z
  then mkSections N (done ++ [states_xy cosf sinf (m ++ [s])]) (states_xy cosf sinf []) (ps_type s) (ps_dir s)
  else mkSections N done (states_xy cosf sinf (m ++ [s])) t d.
Proof.
  unfold section_step, states_xy. cbn [sec_last sec_type sec_dir sec_done fst snd]. rewrite !flat_map_app. reflexivity.
Qed.

Lemma sections_fold {N : Num} cosf sinf : forall (l : list (pstate N)) done m k, (forall s, In s m -> kind s = k) ->
  exists gs, grouped k (m ++ l) gs /\
    let st := fold_left (section_step N cosf sinf) l (mkSections N done (states_xy cosf sinf m) (fst k) (snd k)) in
    sec_done N st ++ [sec_last N st] = done ++ map (states_xy cosf sinf) gs.
Proof.
  induction l as [|s l IH]; intros done m k M.
  - exists [m]. rewrite app_nil_r. split; [now constructor|]. reflexivity.
  - cbn [fold_left]. rewrite step_xy. destruct (negb (ps_type s =? fst k)%Z || negb (ps_dir s =? snd k)%Z) eqn:C.
    + assert (K : kind s <> k).
      { intros K. subst k. cbn [kind fst snd] in C. now rewrite !Z.eqb_refl in C. }
      destruct (IH (done ++ [states_xy cosf sinf (m ++ [s])]) [] (kind s)) as [gs [G E]]; [intros x []|].
      exists ((m ++ [s]) :: gs). split; [now constructor|]. cbn [map]. cbn zeta in *. cbn [kind fst snd] in E.
      rewrite E, <- app_assoc. reflexivity.
    + assert (K : kind s = k).
      { apply orb_false_iff in C as [C1 C2]. apply negb_false_iff, Z.eqb_eq in C1, C2. destruct k; cbn in *; unfold kind. congruence. }
      destruct (IH done (m ++ [s]) k) as [gs [G E]].
      { intros x X. apply in_app_or in X as [X|[<-|[]]]; auto. }
      rewrite <- app_assoc in G. exists gs. split; [exact G|exact E].
Qed.

Lemma path_sections_spec {N : Num} cosf sinf s0 (l : list (pstate N)) : exists gs, grouped (kind s0) l gs /\
  path_sections N cosf sinf s0 l = map (states_xy cosf sinf) gs.
Proof.
  destruct (sections_fold cosf sinf l [] [] (kind s0)) as [gs [G E]]; [intros s []|]. exists gs. split; [exact G|]. exact E.
Qed.
