From Coq Require Import List Arith ZArith Lia Bool Reals Lra Psatz.
From Verif Require Import Outcome ListAux Num Swath_Model Point_Model Angle_Model Angle_Spec Angle_Proofs Angle_Proofs2.
From Verif Require Import Objective_Spec Objective_Proofs2 Path_Model Path_Spec.
Import ListNotations.
Open Scope R_scope.

Lemma addState_fold N (q : list (pstate N)) : forall p, fold_left (path_addState N) q p = p ++ q.
Proof.
  induction q as [|s q IH]; intro p; simpl; [rewrite app_nil_r; auto|]. rewrite IH. unfold path_addState.
  rewrite <- app_assoc. auto.
Qed.

(** Length and time as sums. *)
Definition al (s : rstate) : R := Rabs (ps_len s).
Definition tm (s : rstate) : R := ps_len s / ps_vel s.

Lemma length_fold (p : list rstate) : forall d : R, fold_left (fun d s => nadd RNum d (nabs RNum (ps_len s))) p d = d + rsum (map al p).
Proof.
  induction p as [|s p IH]; intro d; simpl; [unfold rsum; simpl; lra|].
  rewrite IH. unfold rsum, al. simpl. lra.
Qed.
Lemma length_sum (p : list rstate) : path_length RNum p = rsum (map al p).
Proof. unfold path_length. rewrite length_fold. simpl. lra. Qed.
Lemma time_fold (p : list rstate) : forall d : R, fold_left (fun d s => nadd RNum (ndiv RNum (ps_len s) (ps_vel s)) d) p d = d + rsum (map tm p).
Proof.
  induction p as [|s p IH]; intro d; simpl; [unfold rsum; simpl; lra|].
  rewrite IH. unfold rsum, tm. simpl. lra.
Qed.
Lemma time_sum (p : list rstate) : path_getTaskTime RNum p = rsum (map tm p).
Proof. unfold path_getTaskTime. rewrite time_fold. simpl. lra. Qed.

Lemma rsum_cons x l : rsum (x :: l) = x + rsum l.
Proof. reflexivity. Qed.

Lemma al_nonneg l : 0 <= rsum (map al l).
Proof. apply rsum_nonneg. intros x H. apply in_map_iff in H. destruct H as (s & <- & _). apply Rabs_pos. Qed.

Lemma driven_S p i s : nth_error p i = Some s -> driven p (S i) = driven p i + Rabs (ps_len s).
Proof.
  unfold driven. revert i. induction p as [|t p IH]; intros [|i] H; simpl in H; try discriminate.
  - injection H as ->. rewrite firstn_cons, firstn_O. cbn [firstn map]. rewrite rsum_cons. unfold rsum. simpl. lra.
  - specialize (IH i H). cbn [firstn map] in *. rewrite !rsum_cons, IH. lra.
Qed.
Lemma driven_cons s p i : driven (s :: p) (S i) = Rabs (ps_len s) + driven p i.
Proof. reflexivity. Qed.
Lemma driven_0 p : driven p 0 = 0.
Proof. reflexivity. Qed.
Lemma driven_all p : driven p (length p) = path_length RNum p.
Proof. unfold driven. rewrite firstn_all, length_sum. reflexivity. Qed.
Lemma driven_nonneg p i : 0 <= driven p i.
Proof. apply al_nonneg. Qed.

(** Path::at. *)
Lemma at_loop_ok p : forall d, 0 <= d <= path_length RNum p -> p <> [] ->
  exists i s, nth_error p i = Some s /\ driven p i <= d <= driven p (S i) /\
    (forall j, (j < i)%nat -> driven p (S j) < d) /\
    leads_to s (d - driven p i) (ps_point (path_at_loop RNum cos sin d p)) /\
    pz (ps_point (path_at_loop RNum cos sin d p)) = 0 /\
    ps_len (path_at_loop RNum cos sin d p) = ps_len s /\ same_kind (path_at_loop RNum cos sin d p) s.
Proof.
  induction p as [|s p IH]; intros d Hd Hp; [congruence|]. cbn [path_at_loop].
  rewrite length_sum in Hd. cbn [map] in Hd. rewrite rsum_cons in Hd. unfold al at 1 in Hd.
  destruct (nltb RNum (nabs RNum (ps_len s)) d) eqn:C.
  - apply Rltb_true in C. simpl in C.
    destruct p as [|t p']. { simpl in Hd. unfold rsum in Hd. simpl in Hd. lra. }
    destruct (IH (d - Rabs (ps_len s))) as (i & u & H1 & H2 & H3 & H4 & H5 & H6 & H7).
    { rewrite length_sum. split; [lra|]. unfold al in *. lra. }
    { discriminate. }
    exists (S i), u. split; auto. rewrite (driven_cons s _ i), (driven_cons s _ (S i)). change (nsub RNum d (nabs RNum (ps_len s))) with (d - Rabs (ps_len s)) in *.
    split; [lra|]. split.
    { intros [|j] Hj; [rewrite driven_cons, driven_0; lra|]. rewrite driven_cons. specialize (H3 j ltac:(lia)). lra. }
    split; [|auto]. replace (d - (Rabs (ps_len s) + driven (t :: p') i)) with (d - Rabs (ps_len s) - driven (t :: p') i) by ring. auto.
  - apply Rltb_false in C. simpl in C. exists 0%nat, s. split; auto. rewrite driven_cons, !driven_0. split; [lra|].
    split; [intros; lia|]. cbn [ps_point px py pz ps_len ps_angle ps_dir ps_type ps_vel]. split; [|split; [auto|split; [auto|]]].
    + unfold leads_to. cbn [px py]. simpl. split; ring.
    + unfold same_kind. auto.
Qed.

(** Path::reduce. *)
(** Leading states merged into [s]. *)
Fixpoint merged (N : Num) (d : N) (s : pstate N) (p : list (pstate N)) : list (pstate N) * list (pstate N) :=
  match p with
  | [] => ([], [])
  | t :: p' => if path_same N d s t then (t :: fst (merged N d s p'), snd (merged N d s p')) else ([], p)
  end.

Lemma merged_ok N d s p : fst (merged N d s p) ++ snd (merged N d s p) = p /\
  Forall (fun t => path_same N d s t = true) (fst (merged N d s p)) /\
  (forall t r, snd (merged N d s p) = t :: r -> path_same N d s t = false) /\ (length (snd (merged N d s p)) <= length p)%nat.
Proof.
  induction p as [|t p (IH1 & IH2 & IH3 & IH4)]; simpl; [split; [auto|split; [auto|split; [discriminate|auto]]]|].
  destruct (path_same N d s t) eqn:C; simpl; [split; [f_equal; auto|split; [auto|split; [auto|lia]]]|].
  split; auto. split; auto. split; [|lia]. intros u r H. injection H as <- <-. auto.
Qed.

Definition with_len {N} (s : pstate N) (l : N) : pstate N :=
  mkPS (ps_point s) (ps_angle s) l (ps_dir s) (ps_type s) (ps_vel s).

Lemma reduce_from_merged N d p : forall s nl, path_reduce_from N d s nl p =
  with_len s (fold_left (fun l t => nadd N l (ps_len t)) (fst (merged N d s p)) nl) :: path_reduce N d (snd (merged N d s p)).
Proof.
  induction p as [|t p IH]; intros s nl; cbn [path_reduce_from merged]; auto.
  destruct (path_same N d s t) eqn:C; [rewrite IH; reflexivity|]. reflexivity.
Qed.

Lemma reduce_ind N d (P : list (pstate N) -> list (pstate N) -> Prop) :
  P [] [] -> (forall s p, P (snd (merged N d s p)) (path_reduce N d (snd (merged N d s p))) ->
    P (s :: p) (with_len s (fold_left (fun l t => nadd N l (ps_len t)) (fst (merged N d s p)) (ps_len s)) :: path_reduce N d (snd (merged N d s p)))) ->
  forall p, P p (path_reduce N d p).
Proof.
  intros H0 HS p. remember (length p) as n eqn:E. assert (Hn : (length p <= n)%nat) by lia. clear E.
  revert p Hn. induction n as [|n IH]; intros p Hn.
  - destruct p; [auto|simpl in Hn; lia].
  - destruct p as [|s p]; auto. simpl path_reduce. rewrite reduce_from_merged. apply HS. apply IH.
    destruct (merged_ok N d s p) as (_ & _ & _ & L). simpl in Hn. lia.
Qed.

Lemma same_with_len N d (s t : pstate N) a b : path_same N d (with_len s a) (with_len t b) = path_same N d s t.
Proof. reflexivity. Qed.

Lemma reduce_head N d p t r : path_reduce N d p = t :: r -> exists u p', p = u :: p' /\ exists l, t = with_len u l.
Proof.
  destruct p as [|u p']; [discriminate|]. simpl. rewrite reduce_from_merged. intro H. injection H as <- <-. eauto.
Qed.

Lemma reduce_idem N d p : path_reduce N d (path_reduce N d p) = path_reduce N d p.
Proof.
  apply (reduce_ind N d (fun p r => path_reduce N d r = r)); auto.
  intros s q IH. cbn [path_reduce].
  destruct (path_reduce N d (snd (merged N d s q))) as [|t r] eqn:E; [reflexivity|].
  cbn [path_reduce_from]. set (nl := fold_left _ _ _).
  destruct (reduce_head N d _ _ _ E) as (u & p' & E1 & l & ->).
  destruct (merged_ok N d s q) as (_ & _ & H & _). specialize (H _ _ E1).
  rewrite same_with_len, H. cbn [ps_point ps_angle ps_dir ps_type ps_vel with_len]. f_equal. exact IH.
Qed.

Lemma sum_fold (l : list rstate) : forall a : R, fold_left (fun l t => nadd RNum l (ps_len t)) l a = a + rsum (map (fun t : rstate => ps_len t : R) l).
Proof. induction l as [|t l IH]; intro a; simpl; [unfold rsum; simpl; lra|]. rewrite IH. unfold rsum. simpl. lra. Qed.

Lemma fst_merged_in N d s p t : In t (fst (merged N d s p)) -> In t p.
Proof. destruct (merged_ok N d s p) as (E & _). intro H. rewrite <- E. apply in_or_app. auto. Qed.

(** Setters. *)
Lemma set_all_ok N f (p : list (pstate N)) : path_set_all N f p = Ok (map f p).
Proof.
  unfold path_set_all.
  assert (G : forall k done rest, length done = k -> foldM (fun p i => path_set_at N f p (Z.of_nat i)) (seq k (length rest)) (done ++ rest) = Ok (done ++ map f rest)).
  { intros k done rest. revert k done. induction rest as [|s rest IH]; intros k done Hk; cbn [length seq foldM]; [auto|].
    unfold path_set_at at 1. destruct (Z.ltb_spec (Z.of_nat k) 0); [lia|]. rewrite Nat2Z.id.
    unfold vec_index, vec_set. rewrite nth_error_app2, Hk, Nat.sub_diag by lia. cbn [nth_error bind].
    rewrite firstn_app, skipn_app. subst k. rewrite firstn_all, Nat.sub_diag, skipn_all2 by lia. cbn [firstn skipn].
    replace (S (length done) - length done)%nat with 1%nat by lia. cbn [skipn app]. rewrite app_nil_r.
    replace (done ++ f s :: rest) with ((done ++ [f s]) ++ rest) by (rewrite <- app_assoc; auto).
    rewrite IH by (rewrite app_length; simpl; lia). rewrite <- app_assoc. auto. }
  apply (G 0%nat [] p); auto.
Qed.
