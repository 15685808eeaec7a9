(** Theorems about routes. *)
From Coq Require Import List Arith ZArith Lia Bool.
From Verif Require Import Outcome ListAux Swath_Model Swath_Proofs Graph_Model Graph_Proofs4
  Graph2D_Model Graph2D_Spec Graph2D_Proofs Graph2D_Props Route_Model Route_Spec Route_Proofs.
Import ListNotations.

(** C24: every sequence of building calls succeeds, and connections and groups
    interleave; all positions used when walking over the route exist. *)
Theorem route_interleaved :
  forall (P W : Type) (h : list (rop P W)),
  exists r, r_run h = Ok r /\
    r_sizeVectorSwaths r <= r_sizeConnections r <= r_sizeVectorSwaths r + 1 /\
    (forall i, i < r_sizeVectorSwaths r ->
       (exists g, r_getSwaths r i = Ok g) /\ (exists c, r_getConnection r i = Ok c)) /\
    (r_isEmpty r = false -> exists c, r_getLastConnection r = Ok c) /\
    (0 < r_sizeVectorSwaths r -> exists g, r_getLastSwaths r = Ok g) /\
    (forall d, exists p, r_startPoint d r = Ok p) /\
    (forall d, exists p, r_endPoint d r = Ok p).
Proof.
  intros P W h. destruct (run_ok h) as (r & E & [S1 S2] & _). exists r. split; auto.
  unfold r_sizeVectorSwaths, r_sizeConnections, r_getSwaths, r_getConnection, r_getLastConnection, r_getLastSwaths, vec_index.
  split; [lia|]. split; [|split; [|split; [|split]]].
  - intros i Hi. split.
    + destruct (nth_error (r_swaths r) i) eqn:En; eauto. apply nth_error_None in En. lia.
    + destruct (nth_error (r_conns r) i) eqn:En; eauto. apply nth_error_None in En. lia.
  - destruct r as [v cs]. simpl in *. intro He. destruct (snoc_cases cs) as [->|(cs0 & c & ->)].
    + destruct v; [discriminate|simpl in S1; lia].
    + rewrite vec_back_snoc. eauto.
  - intro H. destruct (snoc_cases (r_swaths r)) as [Ev|(v0 & g & ->)]; [rewrite Ev in H; simpl in H; lia|].
    rewrite vec_back_snoc. eauto.
  - intro d. unfold r_startPoint, r_sizeConnections, r_sizeVectorSwaths. destruct r as [v cs]. simpl.
    destruct cs as [|[|p c] cs]; simpl; eauto; destruct v as [|[|s g] v]; simpl; eauto.
  - intro d. unfold r_endPoint, r_sizeConnections, r_sizeVectorSwaths.
    assert (HV : forall A (l : list A), 0 < length l -> exists a, vec_back l = Ok a).
    { intros A l Hl. destruct (snoc_cases l) as [->|(l0 & a & ->)]; [simpl in Hl; lia|]. rewrite vec_back_snoc. eauto. }
    assert (HG : exists p, (do g <- (if 0 <? length (r_swaths r) then vec_back (r_swaths r) else Ok []);
      if (0 <? length (r_swaths r)) && (0 <? length g)
      then do s <- vec_back g; Ok (swath_endPoint d s) else Ok d) = Ok p).
    { destruct (Nat.ltb_spec 0 (length (r_swaths r))); simpl; eauto.
      destruct (HV _ (r_swaths r)) as [g ->]; auto. simpl. destruct (Nat.ltb_spec 0 (length g)); eauto.
      destruct (HV _ g) as [s ->]; auto. simpl. eauto. }
    destruct (Nat.ltb_spec (length (r_swaths r)) (length (r_conns r))); cbn [andb]; auto.
    destruct (HV _ (r_conns r)) as [c ->]; [lia|]. cbn [bind]. destruct (Nat.ltb_spec 0 (length c)); auto.
    unfold mp_last. destruct (rev c) eqn:Er; eauto.
    apply (f_equal (@length P)) in Er. rewrite rev_length in Er. simpl in Er. lia.
Qed.
Print Assumptions route_interleaved.

Definition ex_sw (a b : nat) : swath nat nat := mkSwath nat nat 0%Z [a; b] 3 true MAINLAND.
Definition ex_route : list (rop nat nat) :=
  [RAddSwath (ex_sw 1 2); RAddSwaths [ex_sw 3 4]; RAddConnection; RAddPoint 5; RAddPoints [6; 7];
   RAddConnectedSwaths [8] [ex_sw 9 10; ex_sw 11 12]; RAddPoints []].

Example route_interleaved_ex :
  exists r, r_run ex_route = Ok r /\ r_sizeVectorSwaths r = 2 /\ r_sizeConnections r = 3 /\
    r_getConnection r 1 = Ok [5; 6; 7; 8].
Proof. eexists. split; [vm_compute; reflexivity|]. repeat split. Qed.

(** C25: the driven line, and the swaths on it, are what the calls handed over,
    in call order. *)
Theorem route_line_in_order :
  forall (P W : Type) (h : list (rop P W)) r, r_run h = Ok r ->
  r_asLineString r = Ok (flat_map rop_line h) /\
  concat (r_swaths r) = flat_map rop_swaths h.
Proof.
  intros P W h r E. destruct (run_ok h) as (r' & E' & _ & B & C & _). assert (r' = r) by congruence. subst r'.
  split; auto. rewrite asLineString_ok. congruence.
Qed.
Print Assumptions route_line_in_order.

Example route_line_ex :
  (do r <- r_run ex_route; r_asLineString r) = Ok [1; 2; 3; 4; 5; 6; 7; 8; 9; 10; 11; 12].
Proof. reflexivity. Qed.

(** C26: start and end of the route are start and end of the line. *)
Theorem route_end_points :
  forall (P W : Type) (d : P) (h : list (rop P W)) r, Forall rop_solid h -> r_run h = Ok r ->
  exists line, r_asLineString r = Ok line /\
    r_startPoint d r = Ok (hd d line) /\ r_endPoint d r = Ok (last line d).
Proof.
  intros P W d h r HF E. destruct (run_ok h) as (r' & E' & A & B & C & D). assert (r' = r) by congruence. subst r'.
  exists (line_of r). rewrite asLineString_ok. split; auto.
  assert (HP : forall s, In s (concat (r_swaths r)) -> sw_path s <> []).
  { rewrite C. intros s Hs. apply in_flat_map in Hs. destruct Hs as (o & Ho & Hs).
    rewrite Forall_forall in HF. apply HF in Ho. destruct o; simpl in *; try tauto.
    - destruct Ho; auto.
    - destruct Ho; auto.
    - destruct Hs as [<-|[]]. auto. }
  rewrite (start_point_ok d r), (end_point_ok d r) by auto. split; auto. f_equal.
  destruct (line_of r) as [|p l] using rev_ind; auto. rewrite rev_app_distr, last_last. auto.
Qed.
Print Assumptions route_end_points.

Example route_end_points_ex : Forall rop_solid ex_route /\
  (do r <- r_run ex_route; r_startPoint 0 r) = Ok 1 /\ (do r <- r_run ex_route; r_endPoint 0 r) = Ok 12.
Proof.
  split; [|split; reflexivity].
  assert (HS : forall a b, sw_path (ex_sw a b) <> []) by discriminate.
  repeat (apply Forall_cons; [simpl; auto; try discriminate; try (split; [discriminate|intros x H; intuition (subst; discriminate)])|]).
  apply Forall_nil.
Qed.

(** C26 without that condition: adding an empty list of swaths behind a
    connection makes the end point the default point. *)
Theorem route_end_point_refuted :
  exists (h : list (rop nat nat)) r line, r_run h = Ok r /\ r_asLineString r = Ok line /\
    line <> [] /\ r_endPoint 0 r = Ok 0 /\ ~ In 0 line.
Proof.
  exists [RAddSwath (ex_sw 1 2); RAddConnection; RAddSwaths []]. do 2 eexists.
  split; [vm_compute; reflexivity|]. split; [vm_compute; reflexivity|]. split; [discriminate|].
  split; [vm_compute; reflexivity|]. simpl. lia.
Qed.
Print Assumptions route_end_point_refuted.

(** C27: addSwath with a graph: the inserted connection is the shortest path
    from the end of the route to the start of the swath; nothing else changes. *)
Theorem add_swath_connects :
  forall (P W : Type) (d : P) (keq : P -> P -> bool) (dist_cost : P -> P -> Z),
  equivalence keq ->
  forall (hr : list (rop P W)) r line (s : swath P W) h1 h2 g,
  Forall rop_solid hr -> r_run hr = Ok r -> r_isEmpty r = false -> r_asLineString r = Ok line ->
  let hg := h1 ++ h2 in
  let a := last line d in
  let b := hd d (sw_path s) in
  forallb two_way hg = true ->
  forallb (fun o => negb (is_query o)) h1 = true -> forallb (fun o => negb (is_removal o)) h2 = true ->
  g2_run keq dist_cost hg = Ok g ->
  (forall I, In I (g2_infs hg) -> I = 1073741824%Z) ->
  (forall p q c, g2_edge keq dist_cost hg p q = Some c -> (0 <= c < 1073741824)%Z) ->
  (exists p, In p (inserted hg) /\ keq p a = true) ->
  (exists p, In p (inserted hg) /\ keq p b = true) ->
  exists r' g' path c,
    r_addSwath_graph d keq r s g = Ok (r', g') /\
    r_asLineString r' = Ok (line ++ path ++ sw_path s) /\
    r_swaths r' = r_swaths r ++ [[s]] /\
    (r_sizeConnections r = r_sizeVectorSwaths r -> r_conns r' = r_conns r ++ [path]) /\
    (r_sizeConnections r <> r_sizeVectorSwaths r ->
       exists cs c0, r_conns r = cs ++ [c0] /\ r_conns r' = cs ++ [c0 ++ path]) /\
    (forall l c' p q, pt_route keq dist_cost hg l c' ->
       hd_error l = Some p -> keq p a = true -> hd_error (rev l) = Some q -> keq q b = true ->
       (c' < 1073741824)%Z -> (c <= c')%Z) /\
    (path = [] <-> keq a b = true \/ c = 1073741824%Z) /\
    (path <> [] -> pt_route keq dist_cost hg path c /\
       exists p q, hd_error path = Some p /\ keq p a = true /\
                   hd_error (rev path) = Some q /\ keq q b = true).
Proof.
  intros P W d keq dc Heq hr r line s h1 h2 g HF E He HL hg a b HU HQ1 HQ2 Eg HI HC Ha Hb.
  destruct (route_end_points P W d hr r HF E) as (line' & HL' & _ & Hend).
  assert (line' = line) by congruence. subst line'.
  destruct (point_shortest_path P keq dc Heq h1 h2 g g2_INF a b HU HQ1 HQ2 Eg HI ltac:(unfold g2_INF; lia) HC Ha Hb)
    as (g1 & g2 & path & c & Q1 & Q2 & Q3 & Q4 & Q5 & Q6).
  destruct (run_ok hr) as (r0 & E0 & Sh & _). assert (r0 = r) by congruence. subst r0.
  assert (Hb' : swath_startPoint d s = b) by (unfold b, swath_startPoint; destruct (sw_path s); auto).
  unfold r_addSwath_graph. rewrite He, Hend. cbn [bind]. fold a. rewrite Hb', Q2. cbn [bind fst snd].
  destruct r as [v cs]. unfold shape in Sh. cbn [r_swaths r_conns] in *.
  unfold r_sizeConnections, r_sizeVectorSwaths. cbn [r_swaths r_conns].
  assert (HLn : forall r : route P W, shape r -> forall r1 r2, r_addConnection_points r path = Ok r1 -> r_addSwath r1 s = Ok r2 ->
    r_asLineString r = Ok line -> r_asLineString r2 = Ok (line ++ path ++ sw_path s)).
  { intros r H r1 r2 E1 E2 El. destruct (add_points path r H) as (r1' & E1' & A1 & B1 & _).
    assert (r1' = r1) by congruence. subst r1'. destruct (add_swath r1 s A1) as (r2' & E2' & _ & B2 & _).
    assert (r2' = r2) by congruence. subst r2'. rewrite asLineString_ok in *. rewrite B2, B1.
    assert (line_of r = line) by congruence. rewrite H0, app_assoc. auto. }
  destruct (Nat.eq_dec (length cs) (length v)) as [Hn|Hn].
  - pose proof (add_points_new path v cs Hn) as E1. rewrite E1. cbn [bind].
    pose proof (add_swath_open v cs path s Hn) as E2. rewrite E2. cbn [bind].
    do 2 eexists. exists path, c. split; [reflexivity|].
    split; [eapply HLn; eauto; unfold shape; simpl; lia|]. cbn [r_swaths r_conns]. split; [auto|]. split; [auto|]. split; [congruence|]. auto.
  - destruct (snoc_cases cs) as [->|(cs0 & c0 & ->)]; [simpl in *; lia|].
    rewrite app_length in Sh, Hn. simpl in Sh, Hn. assert (Hn' : length cs0 = length v) by lia.
    pose proof (add_points_open path v cs0 c0 Hn') as E1. rewrite E1. cbn [bind].
    pose proof (add_swath_open v cs0 (c0 ++ path) s Hn') as E2. rewrite E2. cbn [bind].
    do 2 eexists. exists path, c. split; [reflexivity|].
    split; [eapply HLn; eauto; unfold shape; simpl; rewrite app_length; simpl; lia|].
    cbn [r_swaths r_conns]. split; auto. rewrite app_length. simpl. split; [lia|].
    split; [intros _; exists cs0, c0; auto|]. auto.
Qed.
Print Assumptions add_swath_connects.

(** C27: on an empty route the swath is only added; an end point or start point
    that is no node of the graph raises out_of_range. *)
Theorem add_swath_graph_other :
  forall (P W : Type) (d : P) (keq : P -> P -> bool) (dist_cost : P -> P -> Z),
  equivalence keq ->
  (forall (s : swath P W) g,
     r_addSwath_graph d keq r_empty s g = Ok (mkRoute [[s]] [[]], g)) /\
  (forall (hr : list (rop P W)) r line s hg g,
     Forall rop_solid hr -> r_run hr = Ok r -> r_isEmpty r = false -> r_asLineString r = Ok line ->
     g2_run keq dist_cost hg = Ok g ->
     (forall p, In p (inserted hg) -> keq p (last line d) = false) \/
     (forall p, In p (inserted hg) -> keq p (hd d (sw_path s)) = false) ->
     r_addSwath_graph d keq r s g = Throw OutOfRange).
Proof.
  intros P W d keq dc Heq. split; [reflexivity|].
  intros hr r line s hg g HF E He HL Eg Hor.
  destruct (route_end_points P W d hr r HF E) as (line' & HL' & _ & Hend).
  assert (line' = line) by congruence. subst line'.
  assert (Hb' : swath_startPoint d s = hd d (sw_path s)) by (unfold swath_startPoint; destruct (sw_path s); auto).
  destruct (point_index_bijection P keq dc Heq hg g Eg) as (pts & _ & _ & _ & _ & H5 & H6).
  unfold r_addSwath_graph. rewrite He, Hend. cbn [bind]. unfold g2_shortestPath. rewrite Hb'.
  assert (HT : forall p, (exists k, g2_nodeToIndex keq g p = Ok k) \/ g2_nodeToIndex keq g p = Throw OutOfRange).
  { intro p. unfold g2_nodeToIndex. destruct (n2i_find _ _ _); eauto. }
  destruct Hor as [H|H].
  - rewrite (H6 _ H). auto.
  - destruct (HT (last line d)) as [[k ->]| ->]; cbn [bind]; auto. rewrite (H6 _ H). auto.
Qed.
Print Assumptions add_swath_graph_other.

Example add_swath_connects_ex :
  exists r g, r_run ex_route = Ok r /\ r_isEmpty r = false /\
    let h1 := [G2Add 12 20 5; G2AddDist 20 30; G2Add 12 30 1; G2Remove 12 30] in
    let h2 := [G2Cost 12 30 g2_INF; G2Add 12 30 99] in
    let hg := h1 ++ h2 in
    forallb two_way hg = true /\ forallb (fun o => negb (is_query o)) h1 = true /\
    forallb (fun o => negb (is_removal o)) h2 = true /\ g2_run Nat.eqb ex_dist hg = Ok g /\
    (forall p q c, g2_edge Nat.eqb ex_dist hg p q = Some c -> (0 <= c < g2_INF)%Z) /\
    In 12 (inserted hg) /\ In 30 (inserted hg) /\
    (do x <- r_addSwath_graph 0 Nat.eqb r (ex_sw 30 31) g; r_getConnection (fst x) 2) = Ok [12; 20; 30].
Proof.
  do 2 eexists. split; [vm_compute; reflexivity|]. split; [reflexivity|]. cbv zeta. split; [reflexivity|].
  split; [reflexivity|]. split; [reflexivity|].
  split; [vm_compute; reflexivity|]. split.
  { intros p q c. unfold g2_edge. simpl.
    repeat match goal with |- context [if ?b then _ else _] => destruct b end;
    intro H; try discriminate; match type of H with Some ?z = _ => assert (c = z) by congruence end; subst c; unfold ex_dist, g2_INF; simpl; lia. }
  split; [simpl; tauto|]. split; [simpl; tauto|]. vm_compute. reflexivity.
Qed.

(** C89: cloning a route. *)
Theorem route_clone_exact :
  forall (P W : Type) (w_nonpos : W -> bool) (w_zero : W) (wkt : P -> P) (r : route P W),
  ((forall s, In s (concat (r_swaths r)) -> w_nonpos (sw_width s) = false) ->
   exists r', r_clone w_nonpos w_zero wkt r = Ok r' /\
     r_conns r' = map (map wkt) (r_conns r) /\
     Forall2 (Forall2 (fun s s' => sw_path s' = map wkt (sw_path s) /\ sw_id s' = sw_id s /\
        sw_width s' = sw_width s /\ sw_dir s' = sw_dir s)) (r_swaths r) (r_swaths r') /\
     (forall line, r_asLineString r = Ok line -> r_asLineString r' = Ok (map wkt line))) /\
  ((exists s, In s (concat (r_swaths r)) /\ w_nonpos (sw_width s) = true) ->
   r_clone w_nonpos w_zero wkt r = Throw InvalidArgument).
Proof.
  intros P W wn wz wkt r.
  assert (HC : forall s : swath P W, wn (sw_width s) = true -> swath_clone wn wz wkt s = Throw InvalidArgument).
  { intros s H. unfold swath_clone, swath_new, swath_setWidth. rewrite H. auto. }
  assert (HC2 : forall s : swath P W, wn (sw_width s) = false ->
    swath_clone wn wz wkt s = Ok (mkSwath P W (sw_id s) (map wkt (sw_path s)) (sw_width s) (sw_dir s) MAINLAND)).
  { intros s H. unfold swath_clone, swath_new, swath_setWidth. simpl. rewrite H. auto. }
  split.
  - intro H.
    set (cl := fun s : swath P W => mkSwath P W (sw_id s) (map wkt (sw_path s)) (sw_width s) (sw_dir s) MAINLAND).
    assert (M1 : forall g : list (swath P W), (forall s, In s g -> wn (sw_width s) = false) -> swaths_clone wn wz wkt g = Ok (map cl g)).
    { unfold swaths_clone. induction g as [|s g IH]; intros Hg; simpl; auto. rewrite HC2 by (apply Hg; left; auto). cbn [bind].
      rewrite IH by (intros; apply Hg; right; auto). auto. }
    assert (M2 : forall v : list (list (swath P W)), (forall s, In s (concat v) -> wn (sw_width s) = false) ->
      mapM (swaths_clone wn wz wkt) v = Ok (map (map cl) v)).
    { induction v as [|g v IH]; intro Hv; simpl; auto. rewrite M1 by (intros; apply Hv; simpl; apply in_or_app; auto). cbn [bind].
      rewrite IH by (intros; apply Hv; simpl; apply in_or_app; auto). auto. }
    unfold r_clone. rewrite M2 by auto. cbn [bind]. eexists. split; [reflexivity|]. cbn [r_conns r_swaths]. split; auto. split.
    + clear. induction (r_swaths r) as [|g v IH]; simpl; constructor; auto.
      induction g as [|s g IHg]; simpl; constructor; auto.
    + intros line Hl. rewrite asLineString_ok in *. assert (line = line_of r) by congruence. subst line. f_equal.
      assert (HW : forall v cs, weave (map (map wkt) cs) (map (map cl) v) = map wkt (weave cs v)).
      { induction v as [|g v IH]; intro cs; simpl; auto. rewrite !map_app. f_equal.
        - induction g as [|s g IHg]; simpl; auto. rewrite map_app, IHg. auto.
        - replace (tl (map (map wkt) cs)) with (map (map wkt) (tl cs)) by (destruct cs; auto). rewrite IH.
          f_equal. destruct cs; auto. }
      unfold line_of. cbn [r_conns r_swaths]. destruct (r_conns r) as [|c cs]; simpl.
      * apply (HW _ []).
      * rewrite HW, map_app. auto.
  - intros (s & Hs & Hw). unfold r_clone.
    assert (M1 : forall g : list (swath P W), (exists s, In s g /\ wn (sw_width s) = true) -> swaths_clone wn wz wkt g = Throw InvalidArgument).
    { unfold swaths_clone. induction g as [|x g IH]; intros (y & Hy & Hyw); simpl in *; [tauto|].
      destruct (wn (sw_width x)) eqn:Ex; [rewrite HC by auto; auto|]. rewrite HC2 by auto. cbn [bind].
      rewrite IH; auto. destruct Hy as [->|Hy]; [congruence|]. eauto. }
    assert (M3 : forall g : list (swath P W), swaths_clone wn wz wkt g = Throw InvalidArgument \/ exists g', swaths_clone wn wz wkt g = Ok g').
    { unfold swaths_clone. induction g as [|x g IH]; simpl; eauto. destruct (wn (sw_width x)) eqn:Ex; [rewrite HC by auto; auto|].
      rewrite HC2 by auto. cbn [bind]. destruct IH as [->|[g' ->]]; cbn [bind]; eauto. }
    assert (M2 : forall v : list (list (swath P W)), (exists s, In s (concat v) /\ wn (sw_width s) = true) ->
      mapM (swaths_clone wn wz wkt) v = Throw InvalidArgument).
    { induction v as [|g v IH]; intros (y & Hy & Hyw); simpl in *; [tauto|]. apply in_app_or in Hy.
      destruct (M3 g) as [->|[g' Eg]]; auto. rewrite Eg. cbn [bind].
      destruct Hy as [Hy|Hy]; [rewrite M1 in Eg; [discriminate|eauto]|]. rewrite IH; eauto. }
    rewrite M2; eauto.
Qed.
Print Assumptions route_clone_exact.

Example route_clone_ex :
  (do r <- r_run ex_route; do c <- r_clone (Nat.eqb 0) 0 (fun p => p + 100) r; r_asLineString c) =
    Ok [101; 102; 103; 104; 105; 106; 107; 108; 109; 110; 111; 112] /\
  r_clone (Nat.eqb 0) 0 (fun p => p) (mkRoute [[swath_of_path 0 [1; 2]]] [[]]) = Throw InvalidArgument.
Proof. split; reflexivity. Qed.
