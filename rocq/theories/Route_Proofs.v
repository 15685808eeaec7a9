(** Proofs about routes. *)
From Coq Require Import List Arith ZArith Lia Bool.
From Verif Require Import Outcome ListAux Swath_Model Graph_Model Graph_Proofs4 Graph2D_Model Route_Model Route_Spec.
Import ListNotations.

Section Proofs.
  Context {P W : Type}.
  Variable p_default : P.
  Notation swath := (swath P W).
  Notation route := (route P W).

  Lemma upd_back_snoc {A} (f : A -> A) l a : upd_back f (l ++ [a]) = Ok (l ++ [f a]).
  Proof. unfold upd_back. rewrite rev_app_distr. simpl. rewrite rev_involutive. auto. Qed.

  Lemma vec_back_snoc {A} (l : list A) a : vec_back (l ++ [a]) = Ok a.
  Proof. unfold vec_back. rewrite rev_app_distr. auto. Qed.

  Lemma snoc_cases {A} (l : list A) : l = [] \/ exists l' a, l = l' ++ [a].
  Proof. destruct l using rev_ind; eauto. Qed.

  (** Groups with the connections behind them. *)
  Fixpoint weave (cs : list (list P)) (gs : list (list swath)) : list P :=
    match gs with
    | [] => []
    | g :: gs => flat_map sw_path g ++ (match cs with c :: _ => c | [] => [] end) ++ weave (tl cs) gs
    end.

  Definition line_of (r : route) : list P :=
    match r_conns r with
    | [] => weave [] (r_swaths r)
    | c :: cs => c ++ weave cs (r_swaths r)
    end.

  Lemma line_from_weave conns : forall v i,
    r_line_from conns i v = Ok (weave (skipn (i + 1) conns) v).
  Proof.
    induction v as [|g v IH]; intro i; simpl; auto.
    rewrite IH. assert (Ht : tl (skipn (i + 1) conns) = skipn (i + 1 + 1) conns).
    { replace (i + 1 + 1) with (S (i + 1)) by lia. generalize (i + 1). clear.
      induction conns as [|c l IH]; intros [|n]; simpl; auto. apply IH. }
    rewrite Ht. destruct (Nat.ltb_spec (i + 1) (length conns)) as [Hl|Hl].
    - unfold vec_index. destruct (nth_error conns (i + 1)) as [c|] eqn:E; [|apply nth_error_None in E; lia].
      simpl. assert (Hs : exists t, skipn (i + 1) conns = c :: t).
      { clear - E. revert E. generalize (i + 1). induction conns as [|x l IH]; intros [|n] E; simpl in *; try discriminate.
        - assert (x = c) by congruence. subst. eauto.
        - apply IH; auto. }
      destruct Hs as [t ->]. auto.
    - rewrite !(skipn_all2 conns) by lia. auto.
  Qed.

  Lemma asLineString_ok r : r_asLineString r = Ok (line_of r).
  Proof.
    unfold r_asLineString, r_isEmpty, line_of. destruct r as [v cs]. simpl.
    destruct v as [|g v], cs as [|c cs]; auto.
    - cbn [length Nat.ltb Nat.leb bind]. rewrite line_from_weave. cbn [bind]. auto.
    - cbn [length Nat.ltb Nat.leb bind]. rewrite line_from_weave. auto.
  Qed.

  Lemma weave_group cs gs g : length cs = length gs -> weave cs (gs ++ [g]) = weave cs gs ++ flat_map sw_path g.
  Proof.
    revert cs. induction gs as [|x gs IH]; intros cs H; simpl in *.
    - destruct cs; [|discriminate]. simpl. rewrite !app_nil_r. auto.
    - destruct cs as [|c cs]; [discriminate|]. simpl. rewrite IH by (simpl in H; lia). rewrite !app_assoc. auto.
  Qed.

  Lemma weave_conn cs gs c : S (length cs) = length gs -> weave (cs ++ [c]) gs = weave cs gs ++ c.
  Proof.
    revert cs. induction gs as [|x gs IH]; intros cs H; simpl in *; [discriminate|].
    destruct cs as [|c0 cs]; simpl in *.
    - destruct gs; [|discriminate]. simpl. rewrite !app_nil_r. auto.
    - rewrite IH by lia. rewrite !app_assoc. auto.
  Qed.

  (** Shapes of a route built by calls. *)
  Definition shape (r : route) : Prop :=
    length (r_swaths r) <= length (r_conns r) <= S (length (r_swaths r)).

  Lemma add_conn r : shape r -> shape (r_addConnection r) /\ line_of (r_addConnection r) = line_of r /\
    length (r_conns (r_addConnection r)) = S (length (r_swaths (r_addConnection r))) /\
    r_swaths (r_addConnection r) = r_swaths r.
  Proof.
    destruct r as [v cs]. unfold shape, r_addConnection, r_sizeConnections, r_sizeVectorSwaths. simpl. intro H.
    destruct (Nat.leb_spec (length cs) (length v)); simpl.
    - rewrite app_length. simpl. split; [lia|]. split; [|split; [lia|auto]].
      unfold line_of. simpl. destruct cs as [|c cs]; simpl in *.
      + destruct v; auto; simpl in *; lia.
      + rewrite weave_conn by lia. rewrite app_nil_r. auto.
    - split; [lia|]. split; auto. split; [lia|auto].
  Qed.

  Lemma add_point r p : shape r -> exists r', r_addConnection_point r p = Ok r' /\ shape r' /\
    line_of r' = line_of r ++ [p] /\ r_swaths r' = r_swaths r /\
    length (r_conns r') = S (length (r_swaths r')) /\
    exists cs c, r_conns r' = cs ++ [c ++ [p]] /\ r_conns (r_addConnection r) = cs ++ [c].
  Proof.
    intro H. destruct (add_conn r H) as (H1 & H2 & H3 & H4). unfold r_addConnection_point.
    destruct (snoc_cases (r_conns (r_addConnection r))) as [E|(cs & c & E)]; [rewrite E in H3; discriminate|].
    rewrite E, upd_back_snoc. simpl. eexists. split; [reflexivity|].
    assert (HL : length cs = length (r_swaths (r_addConnection r))).
    { rewrite E, app_length in H3. simpl in H3. lia. }
    split; [unfold shape; simpl; rewrite app_length; simpl; lia|].
    split; [|split; [auto|split; [simpl; rewrite app_length; simpl; lia|exists cs, c; auto]]].
    rewrite <- H2. unfold line_of. simpl. rewrite E. destruct cs as [|c0 cs]; simpl in *.
    - destruct (r_swaths (r_addConnection r)); [|discriminate]. simpl. rewrite !app_nil_r. auto.
    - rewrite !weave_conn by lia. rewrite !app_assoc. auto.
  Qed.

  Lemma add_points_aux mp : forall r, shape r -> exists r', foldM r_addConnection_point mp r = Ok r' /\ shape r' /\
    line_of r' = line_of r ++ mp /\ r_swaths r' = r_swaths r /\
    (mp <> [] -> length (r_conns r') = S (length (r_swaths r'))) /\ (mp = [] -> r' = r).
  Proof.
    induction mp as [|p mp IH]; intros r H; simpl.
    - exists r. rewrite app_nil_r. repeat split; auto; try apply H. congruence.
    - destruct (add_point r p H) as (r1 & E & H1 & H2 & H3 & H4 & _). rewrite E. simpl.
      destruct (IH r1 H1) as (r' & E' & G1 & G2 & G3 & G4 & G5). exists r'.
      split; auto. split; auto. split; [rewrite G2, H2, <- app_assoc; auto|].
      split; [congruence|]. split; [|discriminate]. intros _. destruct mp as [|q mp].
      + rewrite (G5 eq_refl). auto.
      + apply G4. discriminate.
  Qed.

  Lemma add_points mp r : shape r -> exists r', r_addConnection_points r mp = Ok r' /\ shape r' /\
    line_of r' = line_of r ++ mp /\ r_swaths r' = r_swaths r /\
    length (r_conns r') = S (length (r_swaths r')).
  Proof.
    intro H. unfold r_addConnection_points. destruct (add_conn r H) as (H1 & H2 & H3 & H4). destruct mp as [|p mp].
    - simpl. exists (r_addConnection r). rewrite H2, app_nil_r. auto.
    - destruct (add_points_aux (p :: mp) r H) as (r' & E & G1 & G2 & G3 & G4 & _).
      cbn [length Nat.ltb Nat.leb]. exists r'. split; auto. split; auto. split; auto. split; auto.
      apply G4. discriminate.
  Qed.

  Lemma shape_start r : shape r -> let conns := if length (r_conns r) =? 0 then r_conns r ++ [[]] else r_conns r in
    shape (mkRoute (r_swaths r) conns) /\ line_of (mkRoute (r_swaths r) conns) = line_of r /\ 0 < length conns.
  Proof.
    unfold shape. destruct r as [v [|c cs]]; simpl; intro H.
    - destruct v; [|simpl in *; lia]. simpl. repeat split; auto; lia.
    - repeat split; auto; lia.
  Qed.

  Lemma line_group v cs g : length cs = S (length v) -> line_of (mkRoute (v ++ [g]) cs) = line_of (mkRoute v cs) ++ flat_map sw_path g.
  Proof.
    unfold line_of. simpl. destruct cs as [|c cs]; [discriminate|]. intro H.
    rewrite weave_group by (simpl in H; lia). rewrite !app_assoc. auto.
  Qed.

  Lemma add_swaths r s : shape r -> exists r', r_addSwaths r s = Ok r' /\ shape r' /\
    line_of r' = line_of r ++ flat_map sw_path s /\
    concat (r_swaths r') = concat (r_swaths r) ++ s /\
    length (r_swaths r') = length (r_conns r') /\
    (s <> [] -> Forall (fun g => g <> []) (r_swaths r) -> Forall (fun g => g <> []) (r_swaths r')).
  Proof.
    intro H. destruct (shape_start r H) as (H1 & H2 & H3). unfold r_addSwaths, r_sizeConnections, r_sizeVectorSwaths.
    set (conns := if length (r_conns r) =? 0 then r_conns r ++ [[]] else r_conns r) in *. unfold shape in H1. simpl in H1.
    destruct (Nat.ltb_spec (length (r_swaths r)) (length conns)) as [Hl|Hl].
    - eexists. split; [reflexivity|]. unfold shape. simpl. rewrite app_length. simpl. split; [lia|].
      split; [rewrite line_group, H2 by lia; auto|]. split; [rewrite concat_app; simpl; rewrite app_nil_r; auto|].
      split; [lia|]. intros Hs HF. apply Forall_app. split; auto.
    - destruct (snoc_cases (r_swaths r)) as [E|(v & g & E)]; [rewrite E in *; simpl in *; lia|].
      rewrite E, upd_back_snoc. simpl. eexists. split; [reflexivity|].
      rewrite E, app_length in H1, Hl. simpl in H1, Hl. unfold shape. simpl. rewrite app_length. simpl.
      split; [lia|]. split.
      + rewrite <- H2, E. rewrite !line_group by lia. unfold swaths_append_swaths. rewrite flat_map_app, app_assoc. auto.
      + split; [rewrite !concat_app; simpl; rewrite !app_nil_r; unfold swaths_append_swaths; rewrite app_assoc; auto|].
        split; [lia|]. intros Hs HF. apply Forall_app in HF. apply Forall_app. split; [tauto|].
        constructor; auto. unfold swaths_append_swaths. intro Hx. apply app_eq_nil in Hx. tauto.
  Qed.

  Lemma add_swath r s : shape r -> exists r', r_addSwath r s = Ok r' /\ shape r' /\
    line_of r' = line_of r ++ sw_path s /\
    concat (r_swaths r') = concat (r_swaths r) ++ [s] /\
    length (r_swaths r') = length (r_conns r') /\
    (Forall (fun g => g <> []) (r_swaths r) -> Forall (fun g => g <> []) (r_swaths r')).
  Proof.
    intro H. destruct (shape_start r H) as (H1 & H2 & H3). unfold r_addSwath, r_sizeConnections, r_sizeVectorSwaths.
    set (conns := if length (r_conns r) =? 0 then r_conns r ++ [[]] else r_conns r) in *. unfold shape in H1. simpl in H1.
    replace (if length (r_conns r) =? 0 then length (r_conns r) + 1 else length (r_conns r)) with (length conns)
      by (unfold conns; destruct (length (r_conns r) =? 0); rewrite ?app_length; auto).
    replace ((length (r_swaths r) <? length conns) || (length (r_swaths r) =? 0)) with (length (r_swaths r) <? length conns)
      by (destruct (Nat.ltb_spec (length (r_swaths r)) (length conns)); simpl; auto; symmetry; apply Nat.eqb_neq; lia).
    destruct (Nat.ltb_spec (length (r_swaths r)) (length conns)) as [Hl|Hl].
    - rewrite upd_back_snoc. simpl. eexists. split; [reflexivity|]. unfold shape. simpl. rewrite app_length. simpl. split; [lia|].
      split; [rewrite line_group, H2 by lia; simpl; rewrite app_nil_r; auto|].
      split; [rewrite concat_app; simpl; auto|].
      split; [lia|]. intros HF. apply Forall_app. split; auto. constructor; auto. discriminate.
    - destruct (snoc_cases (r_swaths r)) as [E|(v & g & E)]; [rewrite E in *; simpl in *; lia|].
      rewrite E, upd_back_snoc. simpl. eexists. split; [reflexivity|].
      rewrite E, app_length in H1, Hl. simpl in H1, Hl. unfold shape. simpl. rewrite app_length. simpl.
      split; [lia|]. split.
      + rewrite <- H2, E. rewrite !line_group by lia. rewrite flat_map_app, app_assoc. simpl. rewrite app_nil_r. auto.
      + split; [rewrite !concat_app; simpl; rewrite !app_nil_r, app_assoc; auto|].
        split; [lia|]. intros HF. apply Forall_app in HF. apply Forall_app. split; [tauto|].
        constructor; auto. intro Hx. apply app_eq_nil in Hx. destruct Hx. discriminate.
  Qed.

  Lemma run_op_ok r o : shape r -> exists r', r_run_op r o = Ok r' /\ shape r' /\
    line_of r' = line_of r ++ rop_line o /\
    concat (r_swaths r') = concat (r_swaths r) ++ rop_swaths o /\
    (rop_solid o -> Forall (fun g => g <> []) (r_swaths r) -> Forall (fun g => g <> []) (r_swaths r')).
  Proof.
    intro H. destruct o; simpl.
    - destruct (add_swaths r s H) as (r' & E & A & B & C & D & F). exists r'. repeat (split; auto). intros [? _]; auto.
    - unfold r_addConnectedSwaths. destruct (add_points mp r H) as (r1 & E1 & A1 & B1 & C1 & _). rewrite E1. simpl.
      destruct (add_swaths r1 s A1) as (r' & E & A & B & C & D & F). exists r'. repeat (split; auto).
      + rewrite B, B1, app_assoc. auto.
      + rewrite C, C1. auto.
      + intros [? _]. rewrite <- C1. auto.
    - destruct (add_swath r s H) as (r' & E & A & B & C & D & F). exists r'. repeat (split; auto).
    - destruct (add_conn r H) as (A & B & _ & C). exists (r_addConnection r). rewrite app_nil_r, C. repeat (split; auto).
      rewrite app_nil_r. auto.
    - destruct (add_point r p H) as (r' & E & A & B & C & _). exists r'. rewrite app_nil_r, C. repeat (split; auto).
    - destruct (add_points mp r H) as (r' & E & A & B & C & _). exists r'. rewrite app_nil_r, C. repeat (split; auto).
  Qed.

  Lemma run_from h : forall r, shape r -> exists r', foldM r_run_op h r = Ok r' /\ shape r' /\
    line_of r' = line_of r ++ flat_map rop_line h /\
    concat (r_swaths r') = concat (r_swaths r) ++ flat_map rop_swaths h /\
    (Forall rop_solid h -> Forall (fun g => g <> []) (r_swaths r) -> Forall (fun g => g <> []) (r_swaths r')).
  Proof.
    induction h as [|o h IH]; intros r H; simpl.
    - exists r. rewrite !app_nil_r. repeat (split; auto); apply H.
    - destruct (run_op_ok r o H) as (r1 & E & A & B & C & D). rewrite E. simpl.
      destruct (IH r1 A) as (r' & E' & A' & B' & C' & D'). exists r'. split; auto. split; auto.
      split; [rewrite B', B, app_assoc; auto|]. split; [rewrite C', C, app_assoc; auto|].
      intros HF HG. apply D'; [eapply Forall_inv_tail; eauto|]. apply D; auto. eapply Forall_inv; eauto.
  Qed.

  Lemma shape_empty : shape r_empty.
  Proof. unfold shape. simpl. lia. Qed.

  Lemma run_ok h : exists r, r_run h = Ok r /\ shape r /\ line_of r = flat_map rop_line h /\
    concat (r_swaths r) = flat_map rop_swaths h /\
    (Forall rop_solid h -> Forall (fun g => g <> []) (r_swaths r)).
  Proof.
    destruct (run_from h r_empty shape_empty) as (r & E & A & B & C & D). exists r. split; auto. split; auto. split; auto. split; auto. intro H. apply D; auto. constructor.
  Qed.

  Lemma vec_back_last {A} (l : list A) a : hd_error (rev l) = Some a -> vec_back l = Ok a.
  Proof. unfold vec_back. destruct (rev l); simpl; congruence. Qed.

  (** End points of a route whose groups and centre lines are not empty. *)
  Lemma start_point_ok r : shape r -> Forall (fun g => g <> []) (r_swaths r) ->
    (forall s, In s (concat (r_swaths r)) -> sw_path s <> []) ->
    r_startPoint p_default r = Ok (match line_of r with [] => p_default | p :: _ => p end).
  Proof.
    destruct r as [v cs]. unfold shape, r_startPoint, r_sizeConnections, r_sizeVectorSwaths, line_of. simpl.
    intros Hs Hg Hp. destruct cs as [|c cs]; simpl.
    - destruct v; [auto|simpl in Hs; lia].
    - destruct c as [|p c]; simpl; auto. destruct v as [|g v]; simpl; auto.
      destruct g as [|s g]; [apply Forall_inv in Hg; congruence|]. simpl.
      assert (Hn : sw_path s <> []) by (apply Hp; simpl; auto).
      unfold swath_startPoint. destruct (sw_path s); [congruence|auto].
  Qed.

  Lemma hd_rev_app {A} (l l' : list A) : l' <> [] -> hd_error (rev (l ++ l')) = hd_error (rev l').
  Proof.
    intro H. rewrite rev_app_distr. destruct (rev l') eqn:E; auto.
    apply (f_equal (@rev A)) in E. rewrite rev_involutive in E. simpl in E. congruence.
  Qed.

  Lemma end_point_ok r : shape r -> Forall (fun g => g <> []) (r_swaths r) ->
    (forall s, In s (concat (r_swaths r)) -> sw_path s <> []) ->
    r_endPoint p_default r = Ok (match rev (line_of r) with [] => p_default | p :: _ => p end).
  Proof.
    destruct r as [v cs]. intros Hs Hg Hp.
    (* the end of the groups *)
    simpl in Hg, Hp.
    assert (HG : forall cs, length cs = length v ->
      (do g <- (if 0 <? length v then vec_back v else Ok []);
       if (0 <? length v) && (0 <? length g)
       then do s <- vec_back g; Ok (swath_endPoint p_default s)
       else Ok p_default) = Ok (match rev (line_of (mkRoute v cs)) with [] => p_default | p :: _ => p end)).
    { simpl in Hg, Hp. clear cs Hs. intros cs Hl. destruct (snoc_cases v) as [->|(v0 & g & ->)]; [destruct cs; [reflexivity|discriminate]|].
      rewrite app_length in *. replace (0 <? length v0 + length [g]) with true by (symmetry; apply Nat.ltb_lt; simpl; lia).
      rewrite vec_back_snoc. simpl. simpl in Hg, Hp. apply Forall_app in Hg. destruct Hg as [_ Hg]. apply Forall_inv in Hg.
      destruct (snoc_cases g) as [->|(g0 & s & ->)]; [congruence|].
      rewrite app_length. replace (0 <? length g0 + length [s]) with true by (symmetry; apply Nat.ltb_lt; simpl; lia).
      rewrite vec_back_snoc. simpl. simpl in Hl. rewrite line_group by lia.
      assert (Hn : sw_path s <> []). { apply Hp. rewrite concat_app. apply in_or_app. right. simpl. rewrite app_nil_r. apply in_or_app. simpl; auto. }
      unfold swath_endPoint. f_equal. rewrite flat_map_app. simpl. rewrite app_nil_r.
      pose proof (hd_rev_app (line_of (mkRoute v0 cs) ++ flat_map sw_path g0) (sw_path s) Hn) as E. rewrite <- app_assoc in E.
      destruct (rev (sw_path s)), (rev (line_of (mkRoute v0 cs) ++ flat_map sw_path g0 ++ sw_path s)); simpl in E; congruence. }
    unfold shape in Hs. simpl in Hs. unfold r_endPoint, r_sizeConnections, r_sizeVectorSwaths. cbn [r_conns r_swaths].
    destruct (Nat.ltb_spec (length v) (length cs)) as [Hl|Hl]; cbn [andb].
    - destruct (snoc_cases cs) as [->|(cs0 & c & ->)]; [simpl in Hl; lia|]. rewrite vec_back_snoc. cbn [bind].
      rewrite app_length in Hs, Hl. simpl in Hs, Hl.
      assert (EL : line_of (mkRoute v (cs0 ++ [c])) = line_of (mkRoute v cs0) ++ c).
      { unfold line_of. simpl. destruct cs0 as [|c0 cs0]; simpl.
        - destruct v; [|simpl in *; lia]. simpl. rewrite app_nil_r. auto.
        - rewrite weave_conn by (simpl in *; lia). rewrite app_assoc. auto. }
      rewrite EL. destruct c as [|p c].
      + cbn [length Nat.ltb Nat.leb]. rewrite app_nil_r.
        apply HG. lia.
      + cbn [length Nat.ltb Nat.leb]. unfold mp_last.
        pose proof (hd_rev_app (line_of (mkRoute v cs0)) (p :: c)) as E. specialize (E ltac:(discriminate)).
        destruct (rev (p :: c)) eqn:E1.
        { apply (f_equal (@rev P)) in E1. rewrite rev_involutive in E1. discriminate. }
        destruct (rev (line_of (mkRoute v cs0) ++ p :: c)); simpl in E; congruence.
    - cbn [bind]. rewrite (HG cs) by lia. auto.
  Qed.

  (** Adding points to an open connection. *)
  Lemma fold_points mp : forall (v : list (list swath)) (cs : list (list P)) c, length cs = length v ->
    foldM r_addConnection_point mp (mkRoute v (cs ++ [c])) = Ok (mkRoute v (cs ++ [c ++ mp])).
  Proof.
    induction mp as [|p mp IH]; intros v cs c H; simpl; [rewrite app_nil_r; auto|].
    unfold r_addConnection_point at 1, r_addConnection, r_sizeConnections, r_sizeVectorSwaths. cbn [r_conns r_swaths].
    rewrite app_length. simpl length. destruct (Nat.leb_spec (length cs + 1) (length v)); [lia|].
    cbn [r_conns r_swaths]. rewrite upd_back_snoc. cbn [bind]. rewrite IH by auto. rewrite <- app_assoc. auto.
  Qed.

  Lemma add_points_new mp (v : list (list swath)) (cs : list (list P)) : length cs = length v ->
    r_addConnection_points (mkRoute v cs) mp = Ok (mkRoute v (cs ++ [mp])).
  Proof.
    intro H. unfold r_addConnection_points.
    assert (E : r_addConnection (mkRoute v cs) = mkRoute v (cs ++ [[]])).
    { unfold r_addConnection, r_sizeConnections, r_sizeVectorSwaths. simpl. rewrite H, Nat.leb_refl. auto. }
    destruct mp as [|p mp]; cbn [length Nat.ltb Nat.leb].
    - rewrite E. auto.
    - cbn [foldM]. unfold r_addConnection_point at 1. rewrite E. cbn [r_conns r_swaths].
      rewrite upd_back_snoc. cbn [bind]. rewrite fold_points by auto. auto.
  Qed.

  Lemma add_points_open mp (v : list (list swath)) (cs : list (list P)) c : length cs = length v ->
    r_addConnection_points (mkRoute v (cs ++ [c])) mp = Ok (mkRoute v (cs ++ [c ++ mp])).
  Proof.
    intro H. unfold r_addConnection_points.
    assert (E : r_addConnection (mkRoute v (cs ++ [c])) = mkRoute v (cs ++ [c])).
    { unfold r_addConnection, r_sizeConnections, r_sizeVectorSwaths. simpl. rewrite app_length. simpl.
      destruct (Nat.leb_spec (length cs + 1) (length v)); auto. lia. }
    destruct (_ <? _); rewrite ?E; apply fold_points; auto.
  Qed.

  Lemma add_swath_open (v : list (list swath)) (cs : list (list P)) c s : length cs = length v ->
    r_addSwath (mkRoute v (cs ++ [c])) s = Ok (mkRoute (v ++ [[s]]) (cs ++ [c])).
  Proof.
    intro H. unfold r_addSwath, r_sizeConnections, r_sizeVectorSwaths. cbn [r_conns r_swaths]. rewrite app_length. simpl length.
    replace (length cs + 1 =? 0) with false by (symmetry; apply Nat.eqb_neq; lia).
    replace (length v <? length cs + 1) with true by (symmetry; apply Nat.ltb_lt; lia).
    cbn [orb]. rewrite upd_back_snoc. auto.
  Qed.
End Proofs.
