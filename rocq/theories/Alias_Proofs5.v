(** Proofs about the sharing of lines: what a program leaves alone. *)
From Coq Require Import List Arith ZArith Bool Lia Permutation.
From Verif Require Import Outcome ListAux Swath_Model Swath_Proofs Swath_Proofs2
  Alias_Model Alias_Spec Alias_Proofs Alias_Proofs2 Alias_Proofs3 Alias_Proofs4.
Import ListNotations.

Local Arguments addrs : simpl never.
Local Arguments deref : simpl never.

Section Frame.
  Context {P W : Type}.
  Variable w_nonpos : W -> bool.
  Variable w_zero : W.
  Variable p_default : P.
  Variable p_lt : P -> P -> bool.
  Variable wkt : P -> P.
  Variable sort_perm : list Z -> list nat.
  Variable move_points : P -> list P -> outcome (list P).
  Hypothesis perm_ok : forall ids, Permutation (sort_perm ids) (seq 0 (length ids)).
  Notation heap := (@heap P).
  Notation hswath := (swath nat W).
  Notation state := (@state P W).
  Notation op := (@op P W).
  Notation step := (step w_nonpos w_zero p_default p_lt wkt sort_perm move_points).
  Notation vstep := (vstep w_nonpos w_zero p_default p_lt wkt sort_perm move_points).
  Notation run := (run w_nonpos w_zero p_default p_lt wkt sort_perm move_points).
  Notation vrun := (vrun w_nonpos w_zero p_default p_lt wkt sort_perm move_points).

  (** An address that a variable named by [o] holds. *)
  Definition source (o : op) (st : state) (a : nat) : Prop :=
    (exists x, names_line o x /\ st_line st x = Some a) \/
    (exists c, names_cont o c /\ In a (addrs (st_cont st c))).

  Record framed (o : op) (st st' : state) : Prop := {
    fr_len : length (st_heap st) <= length (st_heap st');
    fr_line : forall x, ~ names_line o x -> st_line st' x = st_line st x;
    fr_cont : forall c, ~ names_cont o c -> st_cont st' c = st_cont st c;
    fr_line_src : forall x a, names_line o x -> st_line st' x = Some a ->
      a < length (st_heap st') /\ (length (st_heap st) <= a \/ source o st a);
    fr_cont_src : forall c, names_cont o c ->
      Forall (wfs (length (st_heap st'))) (st_cont st' c) /\
      forall a, In a (addrs (st_cont st' c)) -> length (st_heap st) <= a \/ source o st a;
    fr_heap : forall b, b < length (st_heap st) -> ~ source o st b ->
      deref (st_heap st') b = deref (st_heap st) b
  }.

  Lemma set_line_eq (ls : nat -> option nat) x a y b : 
    set ls x (Some a) y = Some b -> (y = x /\ b = a) \/ (y <> x /\ ls y = Some b).
  Proof. unfold set. destruct (Nat.eqb_spec y x); intro H; [left|right]; split; congruence. Qed.

  Lemma Forall_at n (l l' : list hswath) i s : Forall (wfs n) l -> wfs n s ->
    vec_set l i s = Ok l' -> Forall (wfs n) l' /\
      (forall a, In a (addrs l') -> In a (sw_path s) \/ In a (addrs l)).
  Proof.
    intros H Hs. unfold vec_set. destruct (nth_error l i) eqn:E; try discriminate.
    intro Eq; injection Eq as <-. 
    assert (S0 := split_at l i s0 E). split.
    - apply Forall_app. rewrite S0 in H. apply Forall_app in H. destruct H as [H1 H2].
      inversion H2; subst. split; [assumption|constructor; assumption].
    - intros a I. rewrite addrs_app in I. apply in_app_or in I. 
      assert (AA : addrs l = addrs (firstn i l) ++ sw_path s0 ++ addrs (skipn (S i) l)).
      { rewrite S0 at 1. rewrite addrs_app. reflexivity. }
      rewrite AA. destruct I as [I|I].
      + right. apply in_or_app. auto.
      + unfold addrs in I. cbn [flat_map] in I. apply in_app_or in I. destruct I as [I|I]; auto.
        right. apply in_or_app. right. apply in_or_app. auto.
  Qed.

  Lemma new_swath_path a w id ty s : hs_new w_nonpos w_zero a w id ty = Ok s -> sw_path s = [a].
  Proof.
    unfold hs_new, swath_new, swath_setWidth. destruct (w_nonpos w); try discriminate.
    intro H; injection H as <-. reflexivity.
  Qed.

  Ltac src_cont d := right; right; exists d; split; cbn; auto.

  Lemma step_framed (st st' : state) (o : op) : well_formed st -> step st o = Ok st' -> framed o st st'.
  Proof.
    intros Wf. assert (WC := fun c => wf_forall st c Wf).
    destruct o; cbn [Alias_Model.step h_new_line h_clone_line]; intro E.
    - (* NewLine *)
      injection E as <-. split; cbn.
      + rewrite app_length. lia.
      + intros y N. apply set_other; auto.
      + auto.
      + intros y a -> E. rewrite set_same in E. injection E as <-. rewrite app_length. cbn. lia.
      + intros c [].
      + intros. apply deref_app; auto.
    - (* CopyLine *)
      unfold get_line in E. destruct (st_line st x) as [a|] eqn:Ex; cbn in E; [|discriminate].
      injection E as <-. split; cbn; auto.
      + intros z N. apply set_other. tauto.
      + intros z b N Ez. apply set_line_eq in Ez. destruct Ez as [[-> ->]|[Nz Ez]].
        * split; [apply (proj1 Wf x a Ex)|]. right. left. exists x. cbn. auto.
        * split; [apply (proj1 Wf z b Ez)|]. right. left. exists z. cbn. auto.
      + intros c [].
    - (* CloneLine *)
      unfold get_line in E. destruct (st_line st x) as [a|] eqn:Ex; cbn in E; [|discriminate].
      injection E as <-. split; cbn; auto.
      + rewrite app_length. lia.
      + intros z N. apply set_other. tauto.
      + intros z b N Ez. rewrite app_length. cbn. apply set_line_eq in Ez. destruct Ez as [[-> ->]|[Nz Ez]].
        * lia.
        * split; [assert (b < length (st_heap st)) by apply (proj1 Wf z b Ez); lia|].
          right. left. exists z. cbn. auto.
      + intros c [].
      + intros. apply deref_app; auto.
    - (* ReversePoints *)
      unfold get_line in E. destruct (st_line st x) as [a|] eqn:Ex; cbn in E; [|discriminate].
      injection E as <-. split; cbn; auto.
      + rewrite length_store. lia.
      + intros y b -> Ey. rewrite length_store. split; [apply (proj1 Wf x b Ey)|].
        right. left. exists x. cbn. auto.
      + intros c [].
      + intros b L N. apply deref_store_other. intro; subst b. apply N. left. exists x. cbn. auto.
    - (* GetPath *)
      unfold vec_at in E. destruct (nth_error (st_cont st c) i) as [s|] eqn:Es; cbn in E; [|discriminate].
      destruct (proj2 Wf c s) as (a & Ea & La); [eapply nth_error_In; eauto|].
      rewrite Ea in E. injection E as <-. split; cbn; auto.
      + intros y N. apply set_other; auto.
      + intros y b -> Ey. rewrite set_same in Ey. injection Ey as <-. split; auto.
        src_cont c. apply in_flat_map. exists s. rewrite Ea. split; [eapply nth_error_In; eauto|left; auto].
      + intros d ->. split; auto. intros a0 I. src_cont c.
    - (* SetPath *)
      unfold vec_at in E. destruct (nth_error (st_cont st c) i) as [s|] eqn:Es; cbn [bind] in E; [|discriminate].
      unfold get_line in E. destruct (st_line st x) as [a|] eqn:Ex; cbn [bind] in E; [|discriminate].
      destruct (vec_set (st_cont st c) i (swath_setPath s [a])) as [l'| | |] eqn:El; cbn [bind] in E; try discriminate.
      assert (La := proj1 Wf x a Ex).
      assert (Ws : wfs (length (st_heap st)) (swath_setPath s [a])) by (exists a; split; [reflexivity|exact La]).
      destruct (Forall_at (length (st_heap st)) _ _ _ _ (WC c) Ws El) as [F1 F2].
      injection E as <-. split; cbn; auto.
      + intros d N. apply set_other; auto.
      + intros y b -> Ey. split; [apply (proj1 Wf x b Ey)|]. right. left. exists x. cbn; auto.
      + intros d ->. rewrite set_same. split; auto. intros b I. destruct (F2 b I) as [J|J].
        * cbn in J. destruct J as [<-|[]]. right. left. exists x. cbn; auto.
        * src_cont c.
    - (* Emplace *)
      unfold get_line in E. destruct (st_line st x) as [a|] eqn:Ex; cbn [bind] in E; [|discriminate].
      destruct (hs_new w_nonpos w_zero a w id ty) as [s| | |] eqn:En; cbn [bind] in E; try discriminate.
      apply new_swath_path in En. assert (La := proj1 Wf x a Ex).
      injection E as <-. split; cbn; auto.
      + intros d N. apply set_other; auto.
      + intros y b -> Ey. split; [apply (proj1 Wf x b Ey)|]. right. left. exists x. cbn; auto.
      + intros d ->. rewrite set_same. split.
        * apply Forall_app. split; auto. constructor; auto. exists a; auto.
        * intros b I. rewrite addrs_app in I. apply in_app_or in I. destruct I as [I|I]; [src_cont c|].
          unfold addrs in I. cbn [flat_map] in I. rewrite En in I. destruct I as [<-|[]].
          right. left. exists x. cbn; auto.
    - (* EmplaceNew *)
      destruct (hs_new w_nonpos w_zero _ w id ty) as [s| | |] eqn:En; cbn [bind] in E; try discriminate.
      apply new_swath_path in En. injection E as <-. split; cbn; auto.
      + rewrite app_length. lia.
      + intros d N. apply set_other; auto.
      + intros y b [].
      + intros d ->. rewrite set_same, app_length. cbn. split.
        * apply Forall_app. split; [eapply Forall_wfs_le; [|apply WC]; lia|].
          constructor; auto. eexists; split; [exact En|lia].
        * intros b I. rewrite addrs_app in I. apply in_app_or in I. destruct I as [I|I]; [src_cont c|].
          unfold addrs in I. cbn [flat_map] in I. rewrite En in I. destruct I as [<-|[]]. auto.
      + intros. apply deref_app; auto.
    - (* NewSwaths *)
      injection E as <-. split; cbn; auto.
      + intros d N. apply set_other; auto.
      + intros y b [].
      + intros d ->. rewrite set_same. split; auto. intros a [].
    - (* PushBack *)
      unfold vec_at in E. destruct (nth_error (st_cont st d) i) as [s|] eqn:Es; cbn [bind] in E; [|discriminate].
      assert (Is : In s (st_cont st d)) by (eapply nth_error_In; eauto).
      injection E as <-. split; cbn; auto.
      + intros e N. apply set_other. tauto.
      + intros y b [].
      + intros e N. unfold set. destruct (Nat.eqb_spec e c).
        * split.
          -- apply Forall_app. split; auto. constructor; auto. apply (proj2 Wf d s Is).
          -- intros b I. rewrite addrs_app in I. apply in_app_or in I. destruct I as [I|I]; [src_cont c|].
             unfold addrs in I. cbn [flat_map] in I. rewrite app_nil_r in I. src_cont d.
             apply in_flat_map. eauto.
        * split; auto. intros b I. src_cont e.
    - (* Append *)
      destruct ((c =? d) && negb (length (st_cont st d) =? 0)); [discriminate|].
      injection E as <-. split; cbn; auto.
      + intros e N. apply set_other. tauto.
      + intros y b [].
      + intros e N. unfold set, swaths_append_swaths. destruct (Nat.eqb_spec e c).
        * split; [apply Forall_app; auto|].
          intros b I. rewrite addrs_app in I. apply in_app_or in I. destruct I as [I|I]; [src_cont c|src_cont d].
        * split; auto. intros b I. src_cont e.
    - (* CopySwaths *)
      injection E as <-. split; cbn; auto.
      + intros e N. apply set_other. tauto.
      + intros y b [].
      + intros e N. unfold set. destruct (Nat.eqb_spec e d).
        * split; auto. intros b I. src_cont c.
        * split; auto. intros b I. src_cont e.
    - (* CloneSwaths *)
      pose proof (clone_list w_nonpos w_zero wkt (st_cont st c) (st_heap st) (WC c)) as CL.
      destruct (hss_clone w_nonpos w_zero wkt (st_heap st) (st_cont st c)) as [[l' h']| | |]; cbn [bind] in E; try discriminate.
      injection E as <-. inversion CL as [r0 v0 [Fr _] E0 E1| | |]; subst. cbn [fst snd] in Fr.
      apply fresh_from_result in Fr. destruct Fr as (F1 & F2 & F3 & F4 & F5). cbn [fst snd] in *.
      split; cbn; auto.
      + intros e N. apply set_other. tauto.
      + intros y b [].
      + intros e N. unfold set. destruct (Nat.eqb_spec e d).
        * split; auto.
        * split; [eapply Forall_wfs_le; [|apply WC]; lia|]. intros b I. src_cont e.
    - (* ReverseSwath *)
      unfold vec_at in E. destruct (nth_error (st_cont st c) i) as [s|] eqn:Es; cbn [bind] in E; [|discriminate].
      destruct (reverse_at (st_heap st) (st_cont st c) i s (WC c) Es) as (l2 & A & B & C & D & F & _).
      assert (Is : In s (st_cont st c)) by (eapply nth_error_In; eauto).
      destruct (hs_reverse (st_heap st) s) as [s' h'] eqn:Er. cbn [fst snd] in *.
      rewrite A in E. cbn [bind] in E. injection E as <-. split; cbn; auto.
      + lia.
      + intros d N. apply set_other; auto.
      + intros y b [].
      + intros d ->. rewrite set_same, D. split; auto. rewrite B. intros b I. src_cont c.
      + intros b L N. apply F. intro I. apply N. right. exists c. cbn. split; auto. apply in_flat_map. eauto.
    - (* ReverseOrder *)
      injection E as <-. split; cbn; auto.
      + intros d N. apply set_other; auto.
      + intros y b [].
      + intros d ->. rewrite set_same. unfold swaths_reverse. split; [apply Forall_rev; auto|].
        intros b I. src_cont c. eapply Permutation_in; [|exact I]. apply addrs_perm. symmetry. apply Permutation_rev.
    - (* ReverseDirOdd *)
      destruct (dirodd_ok (st_cont st c) (st_heap st) (WC c)) as (R1 & R2 & R3 & R4 & R5).
      destruct (hss_reverseDirOddSwaths (st_heap st) (st_cont st c)) as [l' h']. cbn [fst snd] in *.
      injection E as <-. split; cbn; auto.
      + lia.
      + intros d N. apply set_other; auto.
      + intros y b [].
      + intros d ->. rewrite set_same, R1. split; auto.
        intros b I. src_cont c. eapply Permutation_in; [symmetry; exact R3|auto].
      + intros b L N. apply R2. intro I. apply N. right. exists c. cbn. auto.
    - (* Sort *)
      destruct (sort_ok sort_perm perm_ok p_default p_lt (st_heap st) (st_cont st c) (WC c))
        as (R1 & R2 & R3 & R4 & R5).
      destruct (hss_sort p_default p_lt sort_perm (st_heap st) (st_cont st c)) as [l' h']. cbn [fst snd] in *.
      injection E as <-. split; cbn; auto.
      + lia.
      + intros d N. apply set_other; auto.
      + intros y b [].
      + intros d ->. rewrite set_same, R1. split; auto.
        intros b I. src_cont c. eapply Permutation_in; [symmetry; exact R3|auto].
      + intros b L N. apply R2. intro I. apply N. right. exists c. cbn. auto.
    - (* MoveTo *)
      destruct (hss_moveTo move_points (st_heap st) ref_pt (st_cont st c)) as [h'| | |] eqn:Em; cbn [bind] in E; try discriminate.
      destruct (move_loop move_points ref_pt _ _ _ (WC c) Em) as (M1 & M2).
      injection E as <-. split; cbn; auto.
      + lia.
      + intros y b [].
      + intros d ->. rewrite M1. split; auto. intros b I. src_cont c.
      + intros b L N. apply M2. intro I. apply N. right. exists c. cbn. auto.
    - (* GenSorted *)
      pose proof (gen_ok w_nonpos w_zero p_default p_lt wkt sort_perm perm_ok k (st_heap st) (st_cont st c) v (WC c)) as G.
      destruct (h_genSortedSwaths _ _ _ _ _ _ k (st_heap st) (st_cont st c) v) as [[l' h']| | |];
        cbn [bind] in E; try discriminate.
      injection E as <-. inversion G as [r0 v0 [Fr _] E0 E1| | |]; subst.
      destruct Fr as (F1 & F2 & F3 & F4 & F5). cbn [fst snd] in *.
      split; cbn; auto.
      + intros e N. apply set_other. tauto.
      + intros y b [].
      + intros e N. unfold set. destruct (Nat.eqb_spec e d).
        * split; auto.
        * split; [eapply Forall_wfs_le; [|apply WC]; lia|]. intros b I. src_cont e.
  Qed.

  Lemma names_line_dec (o : op) x : names_line o x \/ ~ names_line o x.
  Proof. destruct o; cbn; try tauto; destruct (Nat.eq_dec x x0); try tauto; destruct (Nat.eq_dec x y); tauto. Qed.
  Lemma names_cont_dec (o : op) e : names_cont o e \/ ~ names_cont o e.
  Proof.
    destruct o; cbn; try tauto; destruct (Nat.eq_dec e c); try tauto; destruct (Nat.eq_dec e d); tauto.
  Qed.

  Lemma framed_wf o st st' : well_formed st -> framed o st st' -> well_formed st'.
  Proof.
    intros Wf F. split.
    - intros x a E. destruct (names_line_dec o x) as [N|N].
      + apply (fr_line_src _ _ _ F x a N E).
      + rewrite (fr_line _ _ _ F x N) in E. pose proof (proj1 Wf x a E). pose proof (fr_len _ _ _ F). lia.
    - intros c s I. destruct (names_cont_dec o c) as [N|N].
      + destruct (fr_cont_src _ _ _ F c N) as [A _]. rewrite Forall_forall in A. apply A; auto.
      + rewrite (fr_cont _ _ _ F c N) in I. destruct (proj2 Wf c s I) as (a & E & L). exists a.
        split; auto. pose proof (fr_len _ _ _ F). lia.
  Qed.

  Lemma step_wf st st' o : well_formed st -> step st o = Ok st' -> well_formed st'.
  Proof. intros Wf E. apply (framed_wf o st); auto. apply step_framed; auto. Qed.

  Lemma run_wf : forall ops st st', well_formed st -> run ops st = Ok st' -> well_formed st'.
  Proof.
    unfold Alias_Model.run. induction ops; intros st st' Wf; cbn [foldM].
    - intro E; injection E as <-; auto.
    - destruct (step st a) eqn:E; cbn [bind]; try discriminate. intro R.
      eapply IHops; [|exact R]. eapply step_wf; eauto.
  Qed.

  (** The condition [apart] in terms of addresses. *)
  Definition held (gl gc : nat -> Prop) (st : state) (a : nat) : Prop :=
    (exists x, gl x /\ st_line st x = Some a) \/ (exists c, gc c /\ In a (addrs (st_cont st c))).

  Lemma apart_held gl gc st : well_formed st ->
    (apart gl gc st <-> forall a, held gl gc st a ->
       held (fun x => ~ gl x) (fun c => ~ gc c) st a -> False).
  Proof.
    intro Wf. split.
    - intros Ap a [(x & G & E)|(c & G & I)] [(y & G' & E')|(d & G' & I')].
      + apply (Ap (InLine x) (InLine y) a); auto.
      + apply in_addrs_holds in I'; auto. destruct I' as (j & Hj).
        apply (Ap (InLine x) (InSwaths d j) a); auto.
      + apply in_addrs_holds in I; auto. destruct I as (i & Hi).
        apply (Ap (InSwaths c i) (InLine y) a); auto.
      + apply in_addrs_holds in I; auto. destruct I as (i & Hi).
        apply in_addrs_holds in I'; auto. destruct I' as (j & Hj).
        apply (Ap (InSwaths c i) (InSwaths d j) a); auto.
    - intros H p q a Gp Gq Hp Hq. apply (H a).
      + destruct p as [x|c i]; cbn in Gp; [left; eauto|right]. exists c. split; auto.
        apply in_addrs_holds; eauto.
      + destruct q as [x|c i]; cbn in Gq; [left; eauto|right]. exists c. split; auto.
        apply in_addrs_holds; eauto.
  Qed.

  Lemma source_held gl gc o st a : within gl gc o -> source o st a -> held gl gc st a.
  Proof. intros [A B] [(x & N & E)|(c & N & I)]; [left|right]; eauto. Qed.

  Lemma step_apart gl gc st st' o : well_formed st -> within gl gc o -> apart gl gc st ->
    step st o = Ok st' ->
    apart gl gc st' /\
    (forall x, ~ gl x -> v_line (views st') x = v_line (views st) x) /\
    (forall c, ~ gc c -> v_cont (views st') c = v_cont (views st) c).
  Proof.
    intros Wf Wi Ap E. pose proof (step_framed _ _ _ Wf E) as F.
    pose proof (framed_wf _ _ _ Wf F) as Wf'.
    pose proof (proj1 (apart_held gl gc st Wf) Ap) as H.
    assert (Out : forall a, held (fun x => ~ gl x) (fun c => ~ gc c) st' a ->
              held (fun x => ~ gl x) (fun c => ~ gc c) st a /\ a < length (st_heap st)).
    { intros a [(x & G & Ex)|(c & G & I)].
      - rewrite (fr_line _ _ _ F) in Ex by (intro N; apply G; apply (proj1 Wi); auto).
        split; [left; eauto|]. apply (proj1 Wf x a Ex).
      - rewrite (fr_cont _ _ _ F) in I by (intro N; apply G; apply (proj2 Wi); auto).
        split; [right; eauto|]. eapply addrs_lt; [apply wf_forall; exact Wf|exact I]. }
    assert (Keep : forall a, held (fun x => ~ gl x) (fun c => ~ gc c) st a -> a < length (st_heap st) ->
              deref (st_heap st') a = deref (st_heap st) a).
    { intros a Ha La. apply (fr_heap _ _ _ F); auto. intro S0. apply (H a); auto. eapply source_held; eauto. }
    split; [|split].
    - apply apart_held; auto. intros a Hin Hout. destruct (Out a Hout) as [Ho La].
      apply (H a); auto.
      destruct Hin as [(x & G & Ex)|(c & G & I)].
      + destruct (names_line_dec o x) as [N|N].
        * destruct (fr_line_src _ _ _ F x a N Ex) as [_ [B|B]]; [lia|]. eapply source_held; eauto.
        * rewrite (fr_line _ _ _ F x N) in Ex. left; eauto.
      + destruct (names_cont_dec o c) as [N|N].
        * destruct (fr_cont_src _ _ _ F c N) as [_ B]. destruct (B a I) as [B'|B']; [lia|].
          eapply source_held; eauto.
        * rewrite (fr_cont _ _ _ F c N) in I. right; eauto.
    - intros x G. cbn. rewrite (fr_line _ _ _ F) by (intro N; apply G; apply (proj1 Wi); auto).
      apply view_ext. intros a Ea. apply Keep; [left; eauto|]. apply (proj1 Wf x a Ea).
    - intros c G. cbn. rewrite (fr_cont _ _ _ F) by (intro N; apply G; apply (proj2 Wi); auto).
      apply values_ext. intros a I. apply Keep; [right; eauto|].
      eapply addrs_lt; [apply wf_forall; exact Wf|exact I].
  Qed.

  Lemma run_apart gl gc : forall ops st st', well_formed st -> Forall (within gl gc) ops ->
    apart gl gc st -> run ops st = Ok st' ->
    apart gl gc st' /\
    (forall x, ~ gl x -> v_line (views st') x = v_line (views st) x) /\
    (forall c, ~ gc c -> v_cont (views st') c = v_cont (views st) c).
  Proof.
    unfold Alias_Model.run. induction ops; intros st st' Wf Wi Ap; cbn [foldM].
    - intro E; injection E as <-. auto.
    - inversion Wi; subst. destruct (step st a) as [s1| | |] eqn:E; cbn [bind]; try discriminate. intro R.
      destruct (step_apart _ _ _ _ _ Wf H1 Ap E) as (A1 & B1 & C1).
      destruct (IHops s1 st' (step_wf _ _ _ Wf E) H2 A1 R) as (A2 & B2 & C2).
      split; auto. split; intros.
      + rewrite B2, B1; auto.
      + rewrite C2, C1; auto.
  Qed.

  (** ** Value semantics for whole programs *)

  Lemma set_ext {A} (f g : nat -> A) x a b : (forall y, f y = g y) -> a = b ->
    forall y, set f x a y = set g x b y.
  Proof. intros H -> y. unfold set. destruct (y =? x); auto. Qed.

  Lemma vstep_ext v v' (o : op) : same_values v v' -> orel same_values (vstep v o) (vstep v' o).
  Proof.
    intros [L C].
    assert (GL : forall x, get_line (v_line v) x = get_line (v_line v') x) by (intro; unfold get_line; rewrite L; auto).
    destruct o; cbn [Alias_Spec.vstep]; rewrite ?GL, ?C;
    repeat (match goal with
    | |- orel _ (bind ?a _) (bind ?a _) => destruct a; cbn [bind]
    | |- orel _ (if ?b then _ else _) _ => destruct b
    end); try constructor; split; cbn; intros; auto; apply set_ext; auto.
  Qed.

  Notation careful := (careful w_nonpos w_zero p_default p_lt wkt sort_perm move_points).

  Lemma same_trans (a b c : @vstate P W) : same_values a b -> same_values b c -> same_values a c.
  Proof. intros [A B] [A' B']. split; intro; etransitivity; eauto. Qed.

  Lemma run_value : forall ops st v, well_formed st -> careful st ops -> same_values (views st) v ->
    orel (fun st' v' => same_values (views st') v') (run ops st) (vrun ops v).
  Proof.
    unfold Alias_Model.run, Alias_Spec.vrun. induction ops; intros st v Wf Ca Sv; cbn [foldM].
    - constructor. auto.
    - cbn [Alias_Spec.careful] in Ca. destruct Ca as [C1 C2].
      pose proof (step_value w_nonpos w_zero p_default p_lt wkt sort_perm move_points perm_ok st a Wf C1) as SV.
      pose proof (vstep_ext _ _ a Sv) as X.
      destruct (step st a) as [s1|e| |] eqn:E1; destruct (vstep (views st) a) as [v1|e'| |]; inversion SV; subst;
        destruct (vstep v a) as [v2|e2| |]; inversion X; subst; cbn [bind]; try constructor.
      apply IHops; auto.
      + eapply step_wf; eauto.
      + eapply same_trans; eauto.
  Qed.
End Frame.
