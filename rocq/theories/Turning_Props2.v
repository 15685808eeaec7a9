(** Turns with the cache switched off (property C246). *)
From Coq Require Import List Arith ZArith Bool Reals Lia Lra.
From Verif Require Import Outcome Num ListAux Point_Model Angle_Model Path_Model Path_Spec Robot_Model Turning_Model Turning_Spec
  Turning_Proofs Turning_Props.
Import ListNotations.
Open Scope R_scope.

(** Whether the last call of setUsingCache asked for the cache; it is used at first. *)
Definition use_after (ops : list turn_op) : bool :=
  fold_left (fun b o => match o with OpUse c => c | _ => b end) ops true.

Lemma step_using simple t o t' : turn_step simple t o = Ok t' ->
  t_using t' = (match o with OpUse c => c | _ => t_using t end).
Proof.
  assert (C : forall rb d sa ea g t1, createTurnIfNotCached simple t rb d sa ea = Ok (g, t1) -> t_using t1 = t_using t).
  { intros rb d sa ea g t1 H. apply cached_raw in H. destruct H as (k & _ & [[_ ->] | (_ & _ & ->)]); reflexivity. }
  destruct o as [rb p a q b|rb d sa ea|d|c]; cbn [turn_step]; intro H.
  - destruct (createTurn simple t rb p a q b) as [[r t1]| | |] eqn:E; try discriminate. cbn [bind snd] in H. injection H as <-.
    apply create_turn_raw in E. destruct E as (d & rot & sa & ea & inv & g & _ & G & _). destruct (t_using t) eqn:U.
    + exact (C _ _ _ _ _ _ G).
    + destruct G as [_ ->]. exact U.
  - destruct (createTurnIfNotCached simple t rb d sa ea) as [[g t1]| | |] eqn:E; try discriminate. cbn [bind snd] in H. injection H as <-.
    exact (C _ _ _ _ _ _ E).
  - injection H as <-. reflexivity.
  - injection H as <-. reflexivity.
Qed.

Lemma using_inv simple ops t : foldM (turn_step simple) ops turner_new = Ok t -> t_using t = use_after ops.
Proof.
  revert t. induction ops as [|o ops IH] using rev_ind; intros t H.
  - cbn [foldM] in H. injection H as <-. reflexivity.
  - rewrite foldM_snoc in H. destruct (foldM (turn_step simple) ops turner_new) as [t1| | |]; try discriminate. cbn [bind] in H.
    unfold use_after. rewrite fold_left_app. cbn [fold_left]. rewrite (step_using _ _ _ _ H), (IH t1 eq_refl). reflexivity.
Qed.

(** C246.  The cache is used until setUsingCache(false) and again after
    setUsingCache(true).  While it is off, a turn is the generator's own answer to this
    very request, whatever was asked before; it changes nothing in the planner; and two planners
    with the cache off and the same discretization give the same turn. *)
Theorem turn_without_cache : forall simple ops t, foldM (turn_step simple) ops turner_new = Ok t ->
  t_using t = use_after ops /\
  (use_after ops = false -> forall rb p a q b,
    (forall r t', createTurn simple t rb p a q b = Ok (r, t') -> t' = t /\
      exists d rot sa ea inv g, transformToNormalTurn p a q b = (d, rot, sa, ea, inv) /\
        simple rb (disc_after ops) d sa ea = Ok g /\ ((length g <= 1)%nat -> r = []) /\ ((2 <= length g)%nat -> length r = length g)) /\
    (forall ops2 t2, foldM (turn_step simple) ops2 turner_new = Ok t2 -> use_after ops2 = false -> disc_after ops2 = disc_after ops ->
      forall r, createTurn simple t rb p a q b = Ok (r, t) <-> createTurn simple t2 rb p a q b = Ok (r, t2))).
Proof.
  intros simple ops t H. pose proof (using_inv _ _ _ H) as U. split; [exact U|]. intros F rb p a q b.
  destruct (cache_provenance _ _ _ H) as (D & _). split.
  - intros r t' E. apply create_turn_raw in E. destruct E as (d & rot & sa & ea & inv & g & T & G & A & B).
    rewrite U, F in G. destruct G as [G ->]. split; [reflexivity|]. exists d, rot, sa, ea, inv, g. split; [exact T|].
    split; [rewrite <- D; exact G|]. split; [exact A|]. intro L. destruct (B L) as (s & mid & e & s1 & mid1 & e1 & s2 & e2 & -> & -> & M & _).
    apply Forall2_length in M. cbn [length] in *. rewrite !app_length in *. cbn [length] in *. lia.
  - intros ops2 t2 H2 F2 D2 r. pose proof (using_inv _ _ _ H2) as U2. destruct (cache_provenance _ _ _ H2) as (D3 & _).
    unfold createTurn. destruct (transformToNormalTurn p a q b) as [[[[d rot] sa] ea] inv]. rewrite U, F, U2, F2, D, D3, D2.
    destruct (simple rb (disc_after ops) d sa ea) as [g| | |]; cbn [bind]; try (split; discriminate).
    destruct (Nat.leb (length g) 1).
    + split; intro E; injection E as <-; reflexivity.
    + destruct (correctPath _ p q) as [l| | |]; cbn [bind]; try (split; discriminate).
      split; intro E; injection E as <-; reflexivity.
Qed.
Print Assumptions turn_without_cache.

(** A planner that stored a turn for velocity 1 and was then told not to use the cache
    answers for velocity 2 with velocity 2. *)
Example turn_without_cache_ex : exists t r t',
  foldM (turn_step (straight 1)) [OpCached (robot_v 1) 1 0 0; OpUse true; OpUse false] turner_new = Ok t /\
  use_after [OpCached (robot_v 1) 1 0 0; OpUse true; OpUse false] = false /\ t_cache t <> [] /\
  createTurn (straight 1) t (robot_v 2) (mkPoint (N := RNum) 0 0 0) 0 (mkPoint (N := RNum) 1 0 0) 0 = Ok (r, t') /\ length r = 2%nat.
Proof.
  assert (H : foldM (turn_step (straight 1)) [OpCached (robot_v 1) 1 0 0; OpUse true; OpUse false] turner_new = Ok
    (mkTurner [([1000; 300; 1000; 0; 0]%Z, [mkPS (N := RNum) (mkPoint (N := RNum) 0 0 0) 0 1 1 2 1; mkPS (N := RNum) (mkPoint (N := RNum) 1 0 0) 0 0 1 2 1])] (1 / 100) false)).
  { cbn [foldM turn_step]. rewrite cached_straight. reflexivity. }
  destruct (transformToNormalTurn (mkPoint (N := RNum) 0 0 0) 0 (mkPoint (N := RNum) 1 0 0) 0) as [[[[d rot] sa] ea] inv] eqn:T.
  destruct (create_turn_defined (straight 1) (mkTurner [([1000; 300; 1000; 0; 0]%Z, [mkPS (N := RNum) (mkPoint (N := RNum) 0 0 0) 0 1 1 2 1; mkPS (N := RNum) (mkPoint (N := RNum) 1 0 0) 0 0 1 2 1])] (1 / 100) false)
    (robot_v 2) _ _ _ _ _ _ _ _ _ T) as (r & t' & E).
  - unfold straight. eauto.
  - discriminate.
  - eexists. exists r, t'. split; [exact H|]. split; [reflexivity|]. split; [discriminate|]. split; [exact E|].
    destruct (turn_without_cache _ _ _ H) as [_ G]. destruct (G eq_refl (robot_v 2) (mkPoint (N := RNum) 0 0 0) 0 (mkPoint (N := RNum) 1 0 0) 0) as [G1 _].
    destruct (G1 _ _ E) as (_ & d1 & rot1 & sa1 & ea1 & inv1 & g & _ & G2 & _ & G3). unfold straight in G2. injection G2 as <-. apply G3. cbn. lia.
Qed.
