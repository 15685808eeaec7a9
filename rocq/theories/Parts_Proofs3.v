(** Collections and parts that are not shared behave as values: proofs.  *)
From Coq Require Import List Arith Bool Lia.
From Verif Require Import Outcome ListAux Graph_Proofs4 Container_Model Alias_Spec Parts_Model Parts_Spec Parts_Proofs Parts_Proofs2.
Import ListNotations.
Local Open Scope nat_scope.

Section P.
  Context {A : Type}.
  Variable isEmpty : A -> bool.
  Variable dflt : A.
  Variable put : A -> A.
  Variable wkt : A -> A.
  Notation step := (@step A isEmpty dflt put wkt).
  Notation run := (@run A isEmpty dflt put wkt).
  Notation vstep := (@vstep A isEmpty dflt put wkt).
  Notation vrun := (@vrun A isEmpty dflt put wkt).
  Notation state := (@state A).

  (** No two variables have the same object, and the objects hold the values. *)
  Record agrees (st : state) (v : @vstate A) : Prop := {
    g_sound : sound st;
    g_owned : owned st;
    g_colls : forall x y a, nth_error (st_coll st) x = Some a -> nth_error (st_coll st) y = Some a -> x = y;
    g_parts : forall p q r, nth_error (st_part st) p = Some r -> nth_error (st_part st) q = Some r -> p = q;
    g_nc : length (st_coll st) = length (v_coll v);
    g_np : length (st_part st) = length (v_part v);
    g_coll : forall x a, nth_error (st_coll st) x = Some a -> nth_error (v_coll v) x = Some (map snd (parts_of st a));
    g_part : forall p b, nth_error (st_part st) p = Some (Own b) -> nth_error (v_part v) p = nth_error (st_solo st) b
  }.

  Lemma count_size (l : list A) : count isEmpty l = coll_size isEmpty l.
  Proof. reflexivity. Qed.

  Lemma vcoll_ok (v : @vstate A) x l : x < length (v_coll v) -> vcoll v x l = Ok (mkV (assign (v_coll v) x l) (v_part v)).
  Proof.
    intro H. unfold vcoll. destruct (Nat.ltb_spec x (length (v_coll v))); try lia.
    rewrite assign_replaced; auto.
  Qed.
  Lemma vpart_ok (v : @vstate A) x l : x < length (v_part v) -> vpart v x l = Ok (mkV (v_coll v) (assign (v_part v) x l)).
  Proof.
    intro H. unfold vpart. destruct (Nat.ltb_spec x (length (v_part v))); try lia.
    rewrite assign_replaced; auto.
  Qed.

  Lemma agrees_new_coll st v x l : agrees st v -> x < length (v_coll v) ->
    agrees (new_coll st x l) (mkV (assign (v_coll v) x l) (v_part v)).
  Proof.
    intros [So Ow Co Pa Nc Np Cv Pv] Hx. constructor; simpl; auto.
    - apply sound_new_coll; auto.
    - intros y z a H1 H2. apply assign_case in H1 as [(-> & E1 & _)|(D1 & H1)]; apply assign_case in H2 as [(-> & E2 & _)|(D2 & H2)]; auto.
      + subst a. apply (s_coll _ So) in H2. lia.
      + subst a. apply (s_coll _ So) in H1. lia.
      + eapply Co; eauto.
    - rewrite !assign_length; auto.
    - intros y a H. unfold parts_of; simpl. change (nth a ?h []) with (kids_at h a). rewrite kids_snoc.
      apply assign_case in H as [(-> & -> & _)|(D & H)].
      + rewrite Nat.eqb_refl, assign_same, combine_snd by auto. reflexivity.
      + rewrite assign_other by auto. rewrite (Cv _ _ H).
        pose proof (s_coll _ So _ _ H). destruct (Nat.eqb_spec a (length (st_heap st))); [lia|]. reflexivity.
  Qed.
  Lemma agrees_new_part st v p w : agrees st v -> p < length (v_part v) ->
    agrees (new_part st p w) (mkV (v_coll v) (assign (v_part v) p w)).
  Proof.
    intros [So Ow Co Pa Nc Np Cv Pv] Hp. constructor; simpl; auto.
    - apply sound_new_part; auto.
    - intros q r H. simpl in H. apply assign_case in H as [(_ & -> & _)|(_ & H)]; eauto.
    - intros y z a H1 H2. apply assign_case in H1 as [(-> & E1 & _)|(D1 & H1)]; apply assign_case in H2 as [(-> & E2 & _)|(D2 & H2)]; auto.
      + subst a. apply (s_own _ So) in H2. lia.
      + subst a. apply (s_own _ So) in H1. lia.
      + eapply Pa; eauto.
    - rewrite !assign_length; auto.
    - intros q b H. apply assign_case in H as [(-> & E & _)|(D & H)].
      + inversion E; subst. rewrite assign_same, nth_error_app2, Nat.sub_diag by auto. reflexivity.
      + rewrite assign_other by auto. rewrite (Pv _ _ H). pose proof (s_own _ So _ _ H).
        rewrite nth_error_app1; auto.
  Qed.
  Lemma agrees_heap st v x a k f : agrees st v -> nth_error (st_coll st) x = Some a ->
    sound (mkState (assign (st_heap st) a k) (st_solo st) f (st_coll st) (st_part st)) ->
    agrees (mkState (assign (st_heap st) a k) (st_solo st) f (st_coll st) (st_part st))
           (mkV (assign (v_coll v) x (map snd k)) (v_part v)).
  Proof.
    intros [So Ow Co Pa Nc Np Cv Pv] Hx S1. constructor; simpl; auto.
    - rewrite !assign_length; auto.
    - intros y b H. unfold parts_of; simpl. change (nth b ?h []) with (kids_at h b).
      rewrite kids_assign by (eapply s_coll; eauto).
      destruct (Nat.eqb_spec b a) as [->|D].
      + assert (y = x) by (eapply Co; eauto). subst y. rewrite assign_same; auto.
        rewrite <- Nc. apply nth_error_Some. congruence.
      + rewrite assign_other by congruence. apply Cv; auto.
  Qed.

  Lemma var_case {B} (l : list B) x : (exists b, var l x = Ok b /\ nth_error l x = Some b /\ x < length l) \/
    (var l x = Throw OutOfRange /\ length l <= x).
  Proof.
    unfold var, vec_at. destruct (nth_error l x) eqn:E.
    - left. exists b. repeat split; auto. apply nth_error_Some. congruence.
    - right. split; auto. apply nth_error_None; auto.
  Qed.
  Lemma agrees_read st v p r : agrees st v -> nth_error (st_part st) p = Some r ->
    exists w, read_ref st r = Ok w /\ nth_error (v_part v) p = Some w.
  Proof.
    intros G H. destruct (read_owned _ _ _ (g_sound _ _ G) (g_owned _ _ G) H) as [w Hw]. exists w. split; auto.
    destruct (g_owned _ _ G _ _ H) as [b ->]. rewrite (g_part _ _ G _ _ H). simpl in Hw. unfold vec_index in Hw.
    destruct (nth_error (st_solo st) b); inversion Hw; auto.
  Qed.
  Lemma vec_at_some {B} (l : list B) x b : nth_error l x = Some b -> vec_at l x = Ok b.
  Proof. unfold vec_at. intros ->. reflexivity. Qed.
  Lemma vec_at_none {B} (l : list B) x : length l <= x -> vec_at l x = Throw OutOfRange.
  Proof. unfold vec_at. intro H. apply nth_error_None in H. rewrite H. reflexivity. Qed.

  Lemma agrees_step st v o : agrees st v -> shares o = false -> orel agrees (step st o) (vstep v o).
  Proof.
    intros G I.
    pose proof (g_nc _ _ G) as Nc. pose proof (g_np _ _ G) as Np.
    assert (VC : forall x l, length (st_coll st) <= x -> vcoll v x l = Throw OutOfRange).
    { intros x l H. unfold vcoll. destruct (Nat.ltb_spec x (length (v_coll v))); auto; lia. }
    assert (VP : forall x l, length (st_part st) <= x -> vpart v x l = Throw OutOfRange).
    { intros x l H. unfold vpart. destruct (Nat.ltb_spec x (length (v_part v))); auto; lia. }
    destruct o; simpl in I; try discriminate; unfold Parts_Model.step, Parts_Spec.vstep.
    - destruct (var_case (st_coll st) x) as [(a & -> & Ha & Lx)|[-> Lx]]; cbn [bind].
      + rewrite vcoll_ok by lia. constructor. apply agrees_new_coll; auto; lia.
      + rewrite VC by auto. constructor.
    - destruct (var_case (st_coll st) x) as [(a & -> & Ha & Lx)|[-> Lx]]; cbn [bind].
      + rewrite (vec_at_some _ _ _ (g_coll _ _ G _ _ Ha)). cbn [bind].
        destruct (var_case (st_coll st) y) as [(b & -> & Hb & Ly)|[-> Ly]]; cbn [bind].
        * rewrite vcoll_ok by lia. constructor. apply agrees_new_coll; auto; lia.
        * rewrite VC by auto. constructor.
      + rewrite vec_at_none by lia. constructor.
    - destruct (var_case (st_coll st) x) as [(a & -> & Ha & Lx)|[-> Lx]]; cbn [bind].
      + rewrite vcoll_ok by lia. constructor. rewrite <- (combine_snd l (st_fresh st)) at 4.
        apply agrees_heap; auto.
        apply (sound_step isEmpty dflt put wkt st (Import x l)); [apply (g_sound _ _ G)|]. simpl.
        rewrite (proj2 (var_ok _ _ _) Ha). reflexivity.
      + rewrite VC by auto. constructor.
    - destruct (var_case (st_coll st) x) as [(a & -> & Ha & Lx)|[-> Lx]]; cbn [bind].
      + rewrite (vec_at_some _ _ _ (g_coll _ _ G _ _ Ha)). cbn [bind].
        destruct (var_case (st_part st) p) as [(r & -> & Hr & Lp)|[-> Lp]]; cbn [bind].
        * destruct (agrees_read _ _ _ _ G Hr) as (w & -> & Hw). rewrite (vec_at_some _ _ _ Hw). cbn [bind].
          rewrite vcoll_ok by lia. constructor.
          replace (map snd (parts_of st a) ++ [put w]) with
            (map snd (parts_of st a ++ combine (seq (st_fresh st) (length [put w])) [put w])) by (rewrite map_app; reflexivity).
          apply agrees_heap; auto. apply (sound_grow st a [put w]); [apply (g_sound _ _ G)|].
          eapply s_coll; eauto. apply (g_sound _ _ G).
        * rewrite (vec_at_none (v_part v)) by lia. constructor.
      + rewrite vec_at_none by lia. constructor.
    - destruct (var_case (st_coll st) x) as [(a & -> & Ha & Lx)|[-> Lx]]; cbn [bind].
      + rewrite (vec_at_some _ _ _ (g_coll _ _ G _ _ Ha)). cbn [bind].
        destruct (var_case (st_part st) p) as [(r & -> & Hr & Lp)|[-> Lp]]; cbn [bind].
        * destruct (agrees_read _ _ _ _ G Hr) as (w & -> & Hw). rewrite (vec_at_some _ _ _ Hw). cbn [bind].
          unfold with_part. change (count isEmpty ?l) with (coll_size isEmpty l).
          destruct (Nat.ltb_spec i (coll_size isEmpty (map snd (parts_of st a)))).
          -- rewrite set_values by auto. cbn [bind]. rewrite vcoll_ok by lia. constructor.
             apply agrees_new_coll; auto. lia.
          -- rewrite vcoll_ok by lia. constructor.
             set (m := repeat (put dflt) (i - coll_size isEmpty (map snd (parts_of st a))) ++ [put w]).
             replace (map snd (parts_of st a) ++ m) with
               (map snd (parts_of st a ++ combine (seq (st_fresh st) (length m)) m)) by (rewrite map_app, combine_snd; reflexivity).
             apply agrees_heap; auto. apply (sound_grow st a m); [apply (g_sound _ _ G)|].
             eapply s_coll; eauto. apply (g_sound _ _ G).
        * rewrite (vec_at_none (v_part v)) by lia. constructor.
      + rewrite vec_at_none by lia. constructor.
    - destruct (var_case (st_coll st) x) as [(a & -> & Ha & Lx)|[-> Lx]]; cbn [bind].
      + rewrite (vec_at_some _ _ _ (g_coll _ _ G _ _ Ha)). cbn [bind].
        destruct (var_case (st_part st) p) as [(r & -> & Hr & Lp)|[-> Lp]]; cbn [bind].
        * destruct (agrees_read _ _ _ _ G Hr) as (w & _ & Hw). rewrite (vec_at_some _ _ _ Hw). cbn [bind].
          change (count isEmpty ?l) with (coll_size isEmpty l). rewrite get_ok. set (l := map snd (parts_of st a)).
          destruct (Nat.ltb_spec i (coll_size isEmpty l)) as [Hi|Hi].
          -- rewrite (size_pos isEmpty _ _ Hi), firstn_all. unfold vec_at. destruct (nth_error l i); cbn [bind]; [|constructor].
             rewrite vpart_ok by lia. constructor. apply agrees_new_part; auto; lia.
          -- rewrite (vec_at_none (firstn _ _)); cbn [bind]; [constructor|]. rewrite firstn_length. lia.
        * rewrite (vec_at_none (v_part v)) by lia. constructor.
      + rewrite vec_at_none by lia. constructor.
    - destruct (var_case (st_part st) p) as [(r & -> & Hr & Lp)|[-> Lp]]; cbn [bind].
      + rewrite vpart_ok by lia. constructor. apply agrees_new_part; auto; lia.
      + rewrite VP by auto. constructor.
    - destruct (var_case (st_part st) p) as [(r & -> & Hr & Lp)|[-> Lp]]; cbn [bind].
      + destruct (agrees_read _ _ _ _ G Hr) as (w & -> & Hw). rewrite (vec_at_some _ _ _ Hw). cbn [bind].
        destruct (var_case (st_part st) q) as [(r' & -> & Hr' & Lq)|[-> Lq]]; cbn [bind].
        * rewrite vpart_ok by lia. constructor. apply agrees_new_part; auto; lia.
        * rewrite VP by auto. constructor.
      + rewrite vec_at_none by lia. constructor.
    - destruct (var_case (st_part st) p) as [(r & Vp & Hr & Lp)|[-> Lp]].
      + rewrite Vp. cbn [bind]. destruct (agrees_read _ _ _ _ G Hr) as (w & Rw & Hw).
        rewrite (vec_at_some _ _ _ Hw), Rw. cbn [bind].
        rewrite vpart_ok by lia.
        assert (S1 : forall st', step st (Change p f) = Ok st' -> sound st').
        { intros st' H. eapply sound_step; eauto. apply (g_sound _ _ G). }
        simpl in S1. rewrite Vp in S1. simpl in S1. rewrite Rw in S1. simpl in S1.
        unfold write_ref in *. rewrite Rw in *. simpl in *. constructor.
        specialize (S1 _ eq_refl). destruct (g_owned _ _ G _ _ Hr) as [b ->]. simpl in *.
        destruct G as [So Ow Co Pa Nc' Np' Cv Pv]. constructor; simpl; auto.
        * rewrite assign_length; auto.
        * intros q c Hq. destruct (Nat.eq_dec q p) as [->|D].
          -- rewrite Hr in Hq. inversion Hq; subst c. rewrite !assign_same; auto; try lia.
             eapply s_own; eauto.
          -- rewrite !assign_other; auto. intros <-. apply D. eapply Pa; eauto.
      + rewrite vec_at_none by lia. constructor.
  Qed.

  Lemma agrees_run ops : forall st v, agrees st v -> forallb (fun o => negb (shares o)) ops = true ->
    orel agrees (run ops st) (vrun ops v).
  Proof.
    induction ops as [|o ops IH]; intros st v G I; unfold Parts_Model.run, Parts_Spec.vrun in *; cbn [foldM].
    - constructor; auto.
    - simpl in I. apply andb_prop in I as [I1 I2]. apply negb_true_iff in I1.
      destruct (agrees_step st v o G I1); cbn [bind]; try constructor. apply IH; auto.
  Qed.

  Lemma agrees_init nc np : agrees (st_init dflt nc np) (v_init dflt nc np).
  Proof.
    assert (SN : forall n x a, nth_error (seq 0 n) x = Some a -> a = x /\ x < n).
    { intros n x a H. assert (x < n) by (rewrite <- (seq_length n 0); apply nth_error_Some; congruence).
      split; auto. rewrite (nth_error_nth' _ 0) in H by (rewrite seq_length; auto).
      rewrite seq_nth in H by auto. inversion H; auto. }
    constructor; simpl.
    - apply sound_init.
    - apply owned_init.
    - intros x y a H1 H2. apply SN in H1 as [-> _]. apply SN in H2 as [-> _]. auto.
    - intros p q r H1 H2. rewrite nth_error_map in H1, H2.
      destruct (nth_error (seq 0 np) p) eqn:E1; inversion H1; subst r.
      destruct (nth_error (seq 0 np) q) eqn:E2; inversion H2; subst.
      apply SN in E1 as [-> _]. apply SN in E2 as [-> _]. auto.
    - rewrite seq_length, repeat_length. auto.
    - rewrite map_length, seq_length, repeat_length. auto.
    - intros x a H. apply SN in H as [-> H]. unfold parts_of; simpl.
      rewrite nth_repeat. simpl. apply nth_error_repeat; auto.
    - intros p b H. rewrite nth_error_map in H. destruct (nth_error (seq 0 np) p) eqn:E; inversion H; subst.
      apply SN in E as [-> _]. auto.
  Qed.

  Lemma agrees_shows st v : agrees st v -> shows st v.
  Proof.
    intros G. split; [apply (g_nc _ _ G)|]. split; [apply (g_np _ _ G)|]. split.
    - intros x l H. unfold coll_value. destruct (var_case (st_coll st) x) as [(a & -> & Ha & Lx)|[_ Lx]]; cbn [bind].
      + rewrite (g_coll _ _ G _ _ Ha) in H. inversion H; auto.
      + rewrite (g_nc _ _ G) in Lx. apply nth_error_None in Lx. congruence.
    - intros p w H. unfold part_value. destruct (var_case (st_part st) p) as [(r & -> & Hr & Lp)|[_ Lp]]; cbn [bind].
      + destruct (agrees_read _ _ _ _ G Hr) as (w' & -> & Hw). congruence.
      + rewrite (g_np _ _ G) in Lp. apply nth_error_None in Lp. congruence.
  Qed.
End P.
