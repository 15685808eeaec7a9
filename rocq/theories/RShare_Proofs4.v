(** Proofs about routes that share their connections: the exact effect of a write, and
    references to a part of the route itself. *)
From Coq Require Import List Arith Bool Lia.
From Verif Require Import Outcome ListAux Graph_Proofs4 Swath_Model Route_Model Alias_Spec Parts_Model Parts_Spec Parts_Proofs
  Holder_Proofs Holder_Proofs2 RShare_Model RShare_Spec RShare_Proofs RShare_Proofs2 RShare_Proofs3.
Import ListNotations.
Local Open Scope nat_scope.

Section Exact.
  Context {P W : Type}.
  Variable w_nonpos : W -> bool.
  Variable w_zero : W.
  Variable wkt : P -> P.
  Variables grow fit : nat -> nat.
  Notation heap := (list (list P)).
  Notation hroute := (hroute P W).
  Notation state := (state P W).
  Notation op := (op P W).
  Notation deref := (@RShare_Model.deref P).
  Notation step := (step w_nonpos w_zero wkt grow fit).
  Notation vstep := (vstep w_nonpos w_zero wkt).
  Notation run := (run w_nonpos w_zero wkt grow fit).
  Notation vrun := (vrun w_nonpos w_zero wkt).

  Definition addr (st : state) (q : place) : option nat :=
    match q with
    | InPts x => nth_error (st_pts st) x
    | InConn r i => match nth_error (st_route st) r with Some v => nth_error (hr_conns v) i | None => None end
    end.
  Lemma holds_addr (st : state) q a : holds st q a <-> addr st q = Some a.
  Proof.
    destruct q as [x|r i]; cbn; [tauto|]. split.
    - intros (v & -> & H). exact H.
    - destruct (nth_error (st_route st) r) as [v|]; [|discriminate]. intro H. exists v; auto.
  Qed.
  Lemma points_addr (st : state) q : points_at (views st) q = option_map (deref (st_heap st)) (addr st q).
  Proof.
    rewrite views_eq. destruct q as [x|r i]; cbn [points_at v_pts v_route addr]; rewrite nth_error_map; [reflexivity|].
    destruct (nth_error (st_route st) r) as [v|]; cbn; auto. apply nth_error_map.
  Qed.

  Lemma write_exact (st : state) p a l q : well_formed st -> holds st p a ->
    let st' := mkState (assign (st_heap st) a (deref (st_heap st) a ++ l)) (st_pts st) (st_route st) in
    (same_object st p q -> points_at (views st') q = option_map (fun c => c ++ l) (points_at (views st) q)) /\
    (~ same_object st p q -> points_at (views st') q = points_at (views st) q).
  Proof.
    intros Wf Hp st'. pose proof (holds_lt st p a Wf Hp) as La. rewrite !points_addr.
    replace (addr st' q) with (addr st q) by (destruct q; reflexivity).
    destruct (addr st q) as [b|] eqn:Eq; cbn [option_map]; [|split; auto].
    unfold st'. cbn [st_heap]. rewrite rderef_assign by exact La. split.
    - intros (c & Hc & Hq). apply holds_addr in Hc, Hq, Hp. assert (b = a) by congruence. subst b.
      rewrite Nat.eqb_refl. reflexivity.
    - intro N. destruct (b =? a) eqn:E; auto. apply Nat.eqb_eq in E. subst b. exfalso. apply N. exists a.
      split; [exact Hp|]. apply holds_addr; exact Eq.
  Qed.

  Lemma adds_step (st st' : state) o r v l : well_formed st -> adds st o r l -> nth_error (st_route st) r = Some v ->
    step st o = Ok st' -> st' = put st r (h_append grow (st_heap st) v l).
  Proof.
    intros Wf A Hv H. pose proof (wf_route st r v Wf Hv) as R.
    destruct o; cbn [adds] in A; try tauto; destruct A as [-> A]; cbn [RShare_Model.step] in H; boks H; injection H as <-;
      repeat match goal with E : var _ _ = Ok _ |- _ => apply var_ok in E end;
      match goal with E : nth_error (st_route st) r = Some ?v1 |- _ => assert (v1 = v) by congruence; subst v1 end.
    - subst l. rewrite point_append in *. congruence.
    - destruct A as (a & Ha & ->). cbn in Ha.
      match goal with E : nth_error (st_pts st) _ = Some ?b |- _ => assert (b = a) by congruence; subst b end.
      match goal with E : h_addConnection_points _ _ _ _ = Ok _ |- _ => rewrite points_append in E by (auto; eapply wf_pts; eauto); injection E as <- end.
      reflexivity.
    - subst l0. rewrite vec_append in * by exact R. congruence.
    - destruct A as (a & Ha & ->). destruct Ha as (v1 & Hv1 & Hi). assert (v1 = v) by congruence. subst v1.
      match goal with E : h_addConnection_own _ _ _ _ = Ok _ |- _ => rename E into Eo end.
      unfold h_addConnection_own in Eo. bok Eo.
      match goal with E : vec_index _ _ = Ok _ |- _ => apply index_ok in E; rewrite Hi in E; injection E as <- end.
      destruct (_ && _ && _) in Eo; [discriminate|]. rewrite points_append in Eo by (auto; eapply rwf_at; eauto). injection Eo as <-. reflexivity.
  Qed.

  Lemma route_write_exact0 (st st' : state) o p l q : well_formed st -> writes st o p l -> step st o = Ok st' ->
    (same_object st p q -> points_at (views st') q = option_map (fun c => c ++ l) (points_at (views st) q)) /\
    (~ same_object st p q -> points_at (views st') q = points_at (views st) q).
  Proof.
    intros Wf Wr H. destruct p as [x|r i]; cbn [writes] in Wr.
    - destruct Wr as (k & -> & ->). cbn [RShare_Model.step] in H. bok H. injection H as <-. apply var_ok in E.
      apply write_exact; auto.
    - destruct Wr as [(k & -> & ->)|[A (v & Hv & Ho & Hl)]].
      + cbn [RShare_Model.step] in H. boks H. injection H as <-. apply var_ok in E. apply index_ok in E0.
        apply write_exact; auto. exists r0; auto.
      + rewrite (adds_step st st' o r v l Wf A Hv H). unfold h_append. rewrite addConnection_open by exact Ho.
        unfold put. cbn [fst snd]. rewrite (assign_id (st_route st) r v Hv).
        apply write_exact; auto. exists v. split; auto. apply last_at; exact Hl.
  Qed.

  (** References to a part of the route. *)
  Lemma own_exact0 (st : state) r i : well_formed st ->
    (step st (AddConnOwn r i) = UB <->
      exists v, nth_error (st_route st) r = Some v /\ (length (hr_conns v) <= i \/ dangles st (AddConnOwn r i))).
  Proof.
    intro Wf. cbn [RShare_Model.step]. unfold var, vec_at. destruct (nth_error (st_route st) r) as [v|] eqn:Hv; cbn [bind].
    2:{ split; [discriminate|]. intros (v & F & _). discriminate. }
    pose proof (wf_route st r v Wf Hv) as R. unfold h_addConnection_own, vec_index.
    destruct (nth_error (hr_conns v) i) as [a|] eqn:Hi; cbn [bind].
    2:{ split; auto. intros _. exists v. split; auto. left. apply nth_error_None; exact Hi. }
    assert (Li : i < length (hr_conns v)) by (apply nth_error_Some; congruence).
    rewrite points_append by (auto; eapply rwf_at; eauto).
    destruct (_ && _ && _) eqn:Ed; cbn [bind].
    - split; auto. intros _. exists v. split; auto. right. cbn [dangles].
      apply andb_true_iff in Ed. destruct Ed as [Ed E3]. apply andb_true_iff in Ed. destruct Ed as [E1 E2].
      apply Nat.leb_le in E1. apply Nat.leb_le in E2. apply negb_true_iff in E3. apply Nat.eqb_neq in E3.
      exists v, a. auto.
    - split; [discriminate|]. intros (v1 & F & [G|(v2 & b & F2 & Hb & G1 & G2 & G3)]); exfalso.
      + assert (v1 = v) by congruence. subst. lia.
      + assert (v2 = v) by congruence. subst v2. assert (b = a) by congruence. subst b.
        apply Nat.leb_le in G1. apply Nat.leb_le in G2. apply Nat.eqb_neq in G3.
        change (nth a (st_heap st) []) with (deref (st_heap st) a) in G3. rewrite G1, G2, G3 in Ed. discriminate.
  Qed.

  (** A clone is new. *)
  Lemma clone_new (st st' : state) r s i : well_formed st -> step st (CloneRoute r s) = Ok st' -> unshared st' (InConn s i).
  Proof.
    intros Wf H. pose proof (step_eff _ _ _ _ _ _ _ _ Wf H) as F. destruct F as [_ _ New _ _ _].
    intros q (a & Hi & Hq). symmetry. apply (New _ _ a); auto.
    cbn [RShare_Model.step] in H. boks H. injection H as <-. unfold h_clone in E1. bok E1. injection E1 as <-.
    destruct Hi as (v & Hv & Hi). cbn in Hv. rewrite assign_same in Hv by (apply var_ok in E0; apply nth_error_Some; congruence).
    injection Hv as <-. cbn in Hi. apply nth_error_In, in_seq in Hi. lia.
  Qed.

  (** Filling the vector of connections. *)
  Variable sw : swath P W.
  Fixpoint fill (k : nat) : list op := match k with 0 => [] | S k => AddConn 0 :: AddSwath 0 sw :: fill k end.

  Definition filled (st : state) (n c : nat) (l : list P) : Prop :=
    exists v a, st_route st = [v] /\ length (hr_conns v) = n /\ length (hr_swaths v) = n /\ hr_cap v = c /\
      nth_error (hr_conns v) 0 = Some a /\ a < length (st_heap st) /\ deref (st_heap st) a = l.

  Lemma fill_runs k : forall st n c l, filled st n c l -> 0 < n -> n + k <= c ->
    exists st', run (fill k) st = Ok st' /\ filled st' (n + k) c l.
  Proof.
    unfold RShare_Model.run. induction k as [|k IH]; intros st n c l F Hn Hc.
    { exists st. rewrite Nat.add_0_r. auto. }
    destruct F as (v & a & Es & E1 & E2 & E3 & E4 & La & E5). destruct st as [h xs rs]. cbn [st_route st_heap] in *. subst rs.
    cbn [fill foldM RShare_Model.step var vec_at st_route st_heap st_pts nth_error bind].
    unfold h_addConnection. rewrite E1, E2, Nat.leb_refl. cbn [h_emplace put fst snd st_pts st_route assign bind].
    rewrite E3, E1. assert (Q : c <=? n = false) by (apply Nat.leb_gt; lia). rewrite Q.
    unfold h_addSwath. cbn [RShare_Model.step var vec_at st_route st_heap st_pts nth_error bind hr_conns hr_swaths hr_cap].
    unfold h_addSwath. cbn [hr_conns hr_swaths hr_cap]. rewrite app_length, E1, E2. cbn [length].
    assert (Q2 : n + 1 =? 0 = false) by (apply Nat.eqb_neq; lia). rewrite Q2. cbn [hr_conns hr_swaths hr_cap].
    rewrite app_length, E1. cbn [length].
    assert (Q3 : n <? n + 1 = true) by (apply Nat.ltb_lt; lia). rewrite Q3. cbn [orb]. rewrite upd_back_snoc.
    cbn [bind put fst snd assign st_pts st_route].
    match goal with |- context [foldM _ (fill k) ?s] => destruct (IH s (S n) c l) as (st' & R & F) end; try lia.
    - cbn [put h_emplace fst snd st_heap st_pts st_route assign].
      exists (mkHR (hr_swaths v ++ [[] ++ [sw]]) (hr_conns v ++ [length h]) c), a. cbn [hr_conns hr_swaths hr_cap st_route st_heap].
      split; [reflexivity|]. rewrite !app_length, E1, E2. cbn [length].
      split; [lia|]. split; [lia|]. split; [reflexivity|]. rewrite nth_error_app1 by lia.
      split; [exact E4|]. change (a < length (h ++ [[]]) /\ deref (h ++ [[]]) a = l). rewrite app_length. split; [cbn; lia|]. rewrite rderef_old by exact La. exact E5.
    - exists st'. split; [exact R|]. replace (n + S k) with (S n + k) by lia. exact F.
  Qed.

  Lemma fill_plain k : Forall (fun o => shares o = false) (fill k).
  Proof. induction k; cbn; repeat (constructor; auto). Qed.

  Lemma own_dangles0 (p q : P) : exists pre v, Forall (fun o => shares o = false) pre /\
    run (pre ++ [AddConnOwn 0 0]) (st_init 0 1) = UB /\ vrun (pre ++ [AddConnOwn 0 0]) (views (st_init 0 1)) = Ok v.
  Proof.
    set (start := [AddConnVec 0 [p; q]; AddSwath 0 sw] : list op).
    set (k := grow 0 - 1).
    assert (S0 : exists st0, run start (st_init 0 1) = Ok st0 /\ filled st0 1 (grow 0) [p; q]).
    { eexists. split; [reflexivity|]. eexists _, 0. repeat (split; [reflexivity|]). cbn. split; [lia|reflexivity]. }
    destruct S0 as (st0 & R0 & F0).
    assert (S1 : exists st1, run (fill k) st0 = Ok st1 /\ filled st1 (1 + k) (grow 0) [p; q]).
    { destruct (le_lt_dec (grow 0) 1) as [G|G].
      - assert (k = 0) by (unfold k; lia). rewrite H. exists st0. split; [reflexivity|exact F0].
      - apply fill_runs; auto. unfold k. lia. }
    destruct S1 as (st1 & R1 & F1).
    assert (R : run (start ++ fill k) (st_init 0 1) = Ok st1).
    { unfold RShare_Model.run in *. rewrite foldM_app, R0. exact R1. }
    assert (Wf : well_formed st1).
    { assert (K : forall ops (s s' : state), well_formed s -> run ops s = Ok s' -> well_formed s').
      { unfold RShare_Model.run. intros ops s s' H1. revert H1. apply foldM_inv.
        intros s1 a s2 H1 H2. eapply step_wf; eauto. }
      eapply K; [apply init_wf|exact R]. }
    destruct F1 as (v & a & Es & E1 & E2 & E3 & E4 & La & E5).
    assert (Hv : nth_error (st_route st1) 0 = Some v) by (rewrite Es; reflexivity).
    assert (V : exists w, vstep (views st1) (AddConnOwn 0 0) = Ok w).
    { cbn [RShare_Spec.vstep]. rewrite views_eq. cbn [v_route]. rewrite Es. cbn [map RShare_Spec.read nth_error bind].
      unfold r_getConnection, vec_index. cbn [hr_value r_conns]. rewrite nth_error_map, E4. cbn [option_map bind].
      rewrite r_points_append by (cbn; rewrite map_length; lia). cbn [bind]. unfold set_route. cbn. eauto. }
    destruct V as [w V]. exists (start ++ fill k), w.
    assert (Pl : Forall (fun o => shares o = false) (start ++ fill k)).
    { apply Forall_app. split; [repeat (constructor; auto)|apply fill_plain]. }
    split; [exact Pl|]. split.
    - unfold RShare_Model.run in *. rewrite foldM_app, R. cbn [bind foldM].
      assert (U : step st1 (AddConnOwn 0 0) = UB).
      { apply own_exact0; auto. exists v. split; auto. right. exists v, a. split; [exact Hv|]. split; [exact E4|].
        split; [lia|]. split; [unfold k in E1; lia|]. change (nth a (st_heap st1) []) with (deref (st_heap st1) a). rewrite E5. discriminate. }
      rewrite U. reflexivity.
    - assert (S : orel shown (run (start ++ fill k) (st_init 0 1)) (vrun (start ++ fill k) (views (st_init 0 1)))).
      { apply run_same; [apply init_wf|]. apply solo_careful; [apply init_wf|apply init_solo|exact Pl]. }
      rewrite R in S. assert (S2 : vrun (start ++ fill k) (views (st_init 0 1)) = Ok (views st1)).
      { remember (vrun (start ++ fill k) (views (st_init 0 1))) as x eqn:Ex. clear Ex. inversion S as [? v1 Hs Eo Ev| | |].
        unfold shown in Hs. rewrite Hs. reflexivity. }
      unfold RShare_Spec.vrun in *. rewrite foldM_app, S2. cbn [bind foldM]. rewrite V. reflexivity.
  Qed.
End Exact.
