(** Theorems about copying, moving and exchanging objects that hold geometries (properties
    C252 and C253), each with its assumptions and an example. *)
From Coq Require Import List Arith ZArith Lia Bool Reals.
From Verif Require Import Outcome Num Graph_Proofs4 Point_Model Path_Model Text_Model Moves_Model.
Import ListNotations.

(** Alive: not moved from. *)
Definition alive {A} (o : option A) : Prop := o <> None.

(** Copies and assignments of points between objects that were not moved from give equal points. *)
Theorem points_copied : forall (N : Num) (p q : point N),
  po_copy N (Some p) = Ok (Some p) /\ po_assign N (Some p) (Some q) = Ok (Some q).
Proof. intros N [x y z] [x' y' z']. split; reflexivity. Qed.
Print Assumptions points_copied.

(** So two points are exchanged by copying one of them and two assignments. *)
Theorem points_exchanged : forall (N : Num) (a b : point_obj N), alive a -> alive b ->
  (do t <- po_copy N a; do a' <- po_assign N a b; do b' <- po_assign N b t; Ok (a', b')) = Ok (b, a).
Proof.
  intros N [p|] [q|] A B; try (exfalso; apply A; reflexivity); try (exfalso; apply B; reflexivity).
  destruct (points_copied N p q) as [-> E]. cbn [bind]. rewrite E. cbn [bind]. destruct (points_copied N q p) as [_ ->]. reflexivity.
Qed.
Print Assumptions points_exchanged.
Example points_exchanged_ex : exists a b : point_obj RNum, alive a /\ alive b /\ a <> b.
Proof.
  exists (Some (mkPoint (N := RNum) 1 2 3)%R), (Some (mkPoint (N := RNum) 1 2 4)%R). split; [discriminate|]. split; [discriminate|].
  intro E. injection E as E. apply (eq_IZR 3 4) in E. discriminate.
Qed.

(** Reading a coordinate of a point and writing one: what is written is read, the other two coordinates
    stay, and each of the six is undefined exactly on a moved-from object. *)
Theorem points_accessed : forall (N : Num) (a : point_obj N) (v : N),
  (a = None -> po_X N a = UB /\ po_Y N a = UB /\ po_Z N a = UB /\ po_setX N a v = UB /\ po_setY N a v = UB /\ po_setZ N a v = UB) /\
  (alive a ->
     (exists b, po_setX N a v = Ok b /\ po_X N b = Ok v /\ po_Y N b = po_Y N a /\ po_Z N b = po_Z N a) /\
     (exists b, po_setY N a v = Ok b /\ po_X N b = po_X N a /\ po_Y N b = Ok v /\ po_Z N b = po_Z N a) /\
     (exists b, po_setZ N a v = Ok b /\ po_X N b = po_X N a /\ po_Y N b = po_Y N a /\ po_Z N b = Ok v)) /\
  (forall x y z, a = Some (mkPoint x y z) -> po_X N a = Ok x /\ po_Y N a = Ok y /\ po_Z N a = Ok z).
Proof.
  intros N a v. split; [intros ->; auto 10|]. split.
  - destruct a as [[x y z]|]; intro A; [|exfalso; apply A; reflexivity].
    split; [|split]; eexists; (split; [reflexivity|]); auto.
  - intros x y z ->. auto.
Qed.
Print Assumptions points_accessed.
Example points_accessed_ex : alive (Some (mkPoint (N := RNum) 1 2 3)%R) /\ ~ alive (snd (po_move RNum (Some (mkPoint (N := RNum) 1 2 3)%R))).
Proof. split; [discriminate|]. intro A. apply A. reflexivity. Qed.

(** Moving a point, a state or a field into a new object gives it every member; what is left has no
    point and no geometry, its numbers stay. Assigning an object (which was not moved from) to another
    gives that one every member; the point of the object assigned stays, its geometry goes. *)
Theorem objects_moved : forall (N : Num) (addr : Type) (spent : text -> text),
  (forall a, po_move N a = (a, None)) /\
  (forall a, so_move N a = (a, mkSO N None (so_rest N a))) /\
  (forall i c v p cs, fo_move N addr spent (mkFO N addr i c v p cs) =
     (mkFO N addr i c v p cs, mkFO N addr (spent i) (spent c) (spent v) None None)) /\
  (forall a b, alive a -> alive b -> po_move_assign N a b = Ok (b, b)) /\
  (forall a b, alive (so_point N a) -> alive (so_point N b) -> so_assign N a b = Ok (b, b)) /\
  (forall a i c v p cs, alive (fo_ref N addr a) -> alive p -> fo_assign N addr spent a (mkFO N addr i c v p cs) =
     Ok (mkFO N addr i c v p cs, mkFO N addr (spent i) (spent c) (spent v) p None)).
Proof.
  intros N addr spent.
  assert (A : forall a b : point_obj N, alive a -> alive b -> po_assign N a b = Ok b).
  { intros [p|] [q|] HA HB; try (exfalso; apply HA; reflexivity); try (exfalso; apply HB; reflexivity). apply points_copied. }
  split; [reflexivity|]. split; [intros []; reflexivity|]. split; [reflexivity|]. split; [|split].
  - intros a b HA HB. unfold po_move_assign. rewrite A by assumption. reflexivity.
  - intros a [q r] HA HB. unfold so_assign. rewrite A by assumption. reflexivity.
  - intros a i c v p cs HA HB. unfold fo_assign. cbn [fo_ref]. rewrite A by assumption. reflexivity.
Qed.
Print Assumptions objects_moved.
Example objects_moved_ex : exists a b : state_obj RNum, alive (so_point RNum a) /\ alive (so_point RNum b) /\ a <> b.
Proof.
  exists (mkSO RNum (Some (mkPoint (N := RNum) 1 2 3)%R) (0, 1, 1%Z, 1%Z, 1)%R), (mkSO RNum (Some (mkPoint (N := RNum) 1 2 4)%R) (0, 1, 1%Z, 1%Z, 1)%R).
  split; [discriminate|]. split; [discriminate|]. intro E. injection E as E. apply (eq_IZR 3 4) in E. discriminate.
Qed.

(** C252 is false: a moved-from point can neither be read nor assigned to, ... *)
Theorem moved_point : forall (N : Num) (a b : point_obj N), let left := snd (po_move N a) in
  po_X N left = UB /\ po_copy N left = UB /\ po_assign N left b = UB /\ (alive b -> po_assign N b left = UB).
Proof. intros N a [q|]; cbn; auto. Qed.
Print Assumptions moved_point.
Example moved_point_ex : forall N (p : point N), fst (po_move N (Some p)) = Some p /\ alive (Some p).
Proof. intros. split; [reflexivity|discriminate]. Qed.

(** ... so std::swap of two points, of two states of a path, or of two fields is undefined. *)
Theorem swap_undefined : forall (N : Num) (p q : point N),
  std_swap (po_move N) (po_move_assign N) (Some p) (Some q) = UB /\
  (forall r r', std_swap (so_move N) (so_assign N) (mkSO N (Some p) r) (mkSO N (Some q) r') = UB) /\
  (forall addr spent i c v cs i' c' v' cs',
     std_swap (fo_move N addr spent) (fo_assign N addr spent) (mkFO N addr i c v (Some p) cs) (mkFO N addr i' c' v' (Some q) cs') = UB).
Proof. intros N p q. repeat split; reflexivity. Qed.
Print Assumptions swap_undefined.

Theorem swap_refuted : exists a b : point_obj RNum, alive a /\ alive b /\ std_swap (po_move RNum) (po_move_assign RNum) a b <> Ok (b, a).
Proof.
  exists (Some (mkPoint (N := RNum) 1 2 3)%R), (Some (mkPoint (N := RNum) 4 5 6)%R). split; [discriminate|]. split; [discriminate|].
  rewrite (proj1 (swap_undefined RNum _ _)). discriminate.
Qed.
Print Assumptions swap_refuted.

(** ** std::reverse *)
Lemma vec_set_ok {A} (l : list A) i a : i < length l -> exists l', vec_set l i a = Ok l' /\ length l' = length l /\
  forall j, nth_error l' j = if j =? i then Some a else nth_error l j.
Proof.
  intro H. unfold vec_set. destruct (nth_error l i) as [b|] eqn:E; [|apply nth_error_None in E; lia].
  apply nth_error_split in E. destruct E as (l1 & l2 & -> & L). subst i.
  assert (F : firstn (length l1) (l1 ++ b :: l2) = l1) by (rewrite firstn_app, Nat.sub_diag, firstn_all; apply app_nil_r).
  assert (S' : skipn (S (length l1)) (l1 ++ b :: l2) = l2).
  { rewrite skipn_app. rewrite skipn_all2 by lia. replace (S (length l1) - length l1) with 1 by lia. reflexivity. }
  rewrite F, S'. eexists. split; [reflexivity|]. split; [rewrite !app_length; reflexivity|].
  intro j. destruct (Nat.eqb_spec j (length l1)) as [->|N].
  - rewrite nth_error_app2, Nat.sub_diag by lia. reflexivity.
  - destruct (lt_dec j (length l1)); [rewrite !nth_error_app1 by lia; reflexivity|].
    rewrite !nth_error_app2 by lia. destruct (j - length l1) eqn:D; [lia|reflexivity].
Qed.

Lemma vec_index_ok {A} (l : list A) i a : nth_error l i = Some a -> vec_index l i = Ok a.
Proof. unfold vec_index. intros ->. reflexivity. Qed.

Lemma nth_ext_error {A} (l l' : list A) : (forall i, nth_error l i = nth_error l' i) -> l = l'.
Proof.
  revert l'. induction l as [|a l IH]; intros [|b l'] H; auto; try (specialize (H 0); discriminate).
  pose proof (H 0) as H0. injection H0 as ->. f_equal. apply IH. intro i. apply (H (S i)).
Qed.

Lemma nth_error_rev {A} (l : list A) i : i < length l -> nth_error (rev l) i = nth_error l (length l - 1 - i).
Proof.
  intro H. destruct l as [|d l0]; [simpl in H; lia|]. set (l := d :: l0) in *.
  rewrite (nth_error_nth' (rev l) d) by (rewrite rev_length; exact H). rewrite (nth_error_nth' l d) by lia.
  f_equal. rewrite rev_nth by exact H. f_equal. lia.
Qed.

Lemma reverse_swapping {A} (swap : A -> A -> outcome (A * A)) (l : list A) : (forall a b, swap a b = Ok (b, a)) ->
  std_reverse swap l = Ok (rev l).
Proof.
  intro HS. unfold std_reverse. set (f := fun l i => _). set (n := length l).
  assert (H : forall k i, i + k <= n / 2 -> forall l', length l' = n ->
    (forall j, j < n -> nth_error l' j = if (j <? i) || (n - i <=? j) then nth_error (rev l) j else nth_error l j) ->
    exists l'', foldM f (seq i k) l' = Ok l'' /\ length l'' = n /\
    (forall j, j < n -> nth_error l'' j = if (j <? i + k) || (n - (i + k) <=? j) then nth_error (rev l) j else nth_error l j)).
  { induction k as [|k IH]; intros i Hi l' HL HN.
    - exists l'. split; [reflexivity|]. split; [exact HL|]. rewrite Nat.add_0_r. exact HN.
    - assert (D : 2 * (n / 2) <= n) by (apply Nat.mul_div_le; lia).
      assert (E1 : exists a, nth_error l i = Some a). { destruct (nth_error l i) eqn:E; eauto. apply nth_error_None in E. unfold n in *. lia. }
      assert (E2 : exists b, nth_error l (n - 1 - i) = Some b). { destruct (nth_error l (n - 1 - i)) eqn:E; eauto. apply nth_error_None in E. unfold n in *. lia. }
      destruct E1 as [a Ea], E2 as [b Eb].
      assert (Ea' : nth_error l' i = Some a).
      { rewrite HN by lia. destruct (Nat.ltb_spec i i); [lia|]. destruct (Nat.leb_spec (n - i) i); [lia|]. exact Ea. }
      assert (Eb' : nth_error l' (n - 1 - i) = Some b).
      { rewrite HN by lia. destruct (Nat.ltb_spec (n - 1 - i) i); [lia|]. destruct (Nat.leb_spec (n - i) (n - 1 - i)); [lia|]. exact Eb. }
      cbn [seq foldM]. unfold f at 1. rewrite HL, (vec_index_ok _ _ _ Ea'). cbn [bind]. rewrite (vec_index_ok _ _ _ Eb'). cbn [bind].
      rewrite HS. cbn [bind]. destruct (vec_set_ok l' i b) as (l1 & E1 & L1 & N1); [lia|]. rewrite E1. cbn [bind]. rewrite L1, HL.
      destruct (vec_set_ok l1 (n - 1 - i) a) as (l2 & E2 & L2 & N2); [lia|]. rewrite E2. cbn [bind].
      destruct (IH (S i) ltac:(lia) l2 ltac:(lia)) as (l3 & E3 & L3 & N3).
      + intros j Hj. rewrite N2, N1. destruct (Nat.eqb_spec j (n - 1 - i)) as [->|Q1].
        * destruct (Nat.ltb_spec (n - 1 - i) (S i)), (Nat.leb_spec (n - S i) (n - 1 - i)); try lia; cbn [orb];
            rewrite nth_error_rev by (fold n; lia); fold n; replace (n - 1 - (n - 1 - i)) with i by lia; auto.
        * destruct (Nat.eqb_spec j i) as [->|Q2].
          -- destruct (Nat.ltb_spec i (S i)); [|lia]. cbn [orb]. rewrite nth_error_rev by (fold n; lia). fold n. auto.
          -- rewrite HN by lia. destruct (Nat.ltb_spec j i), (Nat.leb_spec (n - i) j), (Nat.ltb_spec j (S i)), (Nat.leb_spec (n - S i) j); try lia; reflexivity.
      + exists l3. split; [exact E3|]. split; [exact L3|]. replace (i + S k) with (S i + k) by lia. exact N3. }
  destruct (H (n / 2) 0 ltac:(lia) l eq_refl) as (l'' & E & L & HN).
  - intros j Hj. destruct (Nat.ltb_spec j 0); [lia|]. destruct (Nat.leb_spec (n - 0) j); [lia|]. reflexivity.
  - rewrite E. f_equal. apply nth_ext_error. intro j. destruct (lt_dec j n) as [Hj|Hj].
    + rewrite HN by exact Hj. destruct (Nat.ltb_spec j (0 + n / 2)); [reflexivity|]. cbn [orb].
      destruct (Nat.leb_spec (n - (0 + n / 2)) j); [reflexivity|].
      assert (D : n = 2 * (n / 2) + n mod 2) by (apply Nat.div_mod; lia). assert (M : n mod 2 < 2) by (apply Nat.mod_upper_bound; lia).
      rewrite nth_error_rev by exact Hj. fold n. f_equal. lia.
    + rewrite (proj2 (nth_error_None l'' j)) by lia. symmetry. apply nth_error_None. rewrite rev_length. fold n. lia.
Qed.

(** C253: lines, rings, cells and swaths are exchanged by std::swap, and std::reverse reverses a vector of them. *)
Theorem swaths_exchanged : forall (N : Num) (addr : Type),
  (forall a b, std_swap (go_move addr) (fun a b => Ok (go_assign addr a b)) a b = Ok (b, a)) /\
  (forall a b, std_swap (wo_move N addr) (wo_assign N addr) a b = Ok (b, a)) /\
  (forall l, std_reverse (std_swap (go_move addr) (fun a b => Ok (go_assign addr a b))) l = Ok (rev l)) /\
  (forall l, std_reverse (std_swap (wo_move N addr) (wo_assign N addr)) l = Ok (rev l)).
Proof.
  intros N addr.
  assert (A : forall a b, std_swap (go_move addr) (fun a b => Ok (go_assign addr a b)) a b = Ok (b, a)) by reflexivity.
  assert (B : forall a b, std_swap (wo_move N addr) (wo_assign N addr) a b = Ok (b, a)) by (intros [a r] [b r']; reflexivity).
  split; [exact A|]. split; [exact B|]. split; intro l; apply reverse_swapping; assumption.
Qed.
Print Assumptions swaths_exchanged.
Example swaths_exchanged_ex : std_reverse (std_swap (go_move nat) (fun a b => Ok (go_assign nat a b))) [Some 7; Some 8; None; Some 9; Some 9] =
  Ok [Some 9; Some 9; None; Some 8; Some 7].
Proof. reflexivity. Qed.

(** C252: reversing a path in place, or any vector of two points or more, is undefined. *)
Theorem reverse_undefined : forall (N : Num) (l : list (point_obj N)) (p : list (state_obj N)),
  Forall alive l -> Forall (fun s => alive (so_point N s)) p ->
  (length l <= 1 -> std_reverse (std_swap (po_move N) (po_move_assign N)) l = Ok (rev l)) /\
  (2 <= length l -> std_reverse (std_swap (po_move N) (po_move_assign N)) l = UB) /\
  (length p <= 1 -> std_reverse (std_swap (so_move N) (so_assign N)) p = Ok (rev p)) /\
  (2 <= length p -> std_reverse (std_swap (so_move N) (so_assign N)) p = UB).
Proof.
  intros N l p HL HP.
  assert (G : forall (A : Type) (swap : A -> A -> outcome (A * A)) (ok : A -> Prop) m, (forall a b, ok a -> ok b -> swap a b = UB) -> Forall ok m ->
    (length m <= 1 -> std_reverse swap m = Ok (rev m)) /\ (2 <= length m -> std_reverse swap m = UB)).
  { intros A swap ok m HS HM. split; intro L.
    - destruct m as [|a [|b m]]; [reflexivity|reflexivity|simpl in L; lia].
    - unfold std_reverse. assert (D : exists k, length m / 2 = S k).
      { destruct (length m / 2) eqn:E; eauto. apply Nat.div_small_iff in E; lia. }
      destruct D as [k ->]. cbn [seq foldM].
      destruct (nth_error m 0) as [a|] eqn:Ea; [|apply nth_error_None in Ea; lia].
      destruct (nth_error m (length m - 1 - 0)) as [b|] eqn:Eb; [|apply nth_error_None in Eb; lia].
      rewrite (vec_index_ok _ _ _ Ea). cbn [bind]. rewrite (vec_index_ok _ _ _ Eb). cbn [bind].
      rewrite Forall_forall in HM. rewrite HS; [reflexivity| |]; apply HM; eapply nth_error_In; eauto. }
  destruct (G _ (std_swap (po_move N) (po_move_assign N)) alive l) as [G1 G2]; auto.
  { intros [a|] [b|] A B; try (exfalso; apply A; reflexivity); try (exfalso; apply B; reflexivity). apply swap_undefined. }
  destruct (G _ (std_swap (so_move N) (so_assign N)) (fun s => alive (so_point N s)) p) as [G3 G4]; auto.
  intros [[a|] r] [[b|] r'] A B; try (exfalso; apply A; reflexivity); try (exfalso; apply B; reflexivity). apply swap_undefined.
Qed.
Print Assumptions reverse_undefined.
Example reverse_undefined_ex : std_reverse (std_swap (so_move RNum) (so_assign RNum))
  [mkSO RNum (Some (mkPoint (N := RNum) 0 0 0)%R) (0, 1, 1%Z, 1%Z, 1)%R; mkSO RNum (Some (mkPoint (N := RNum) 1 0 0)%R) (0, 1, 1%Z, 1%Z, 1)%R] = UB.
Proof.
  apply (reverse_undefined RNum [] [mkSO RNum (Some (mkPoint (N := RNum) 0 0 0)%R) (0, 1, 1%Z, 1%Z, 1)%R; mkSO RNum (Some (mkPoint (N := RNum) 1 0 0)%R) (0, 1, 1%Z, 1%Z, 1)%R]).
  - constructor.
  - repeat constructor; discriminate.
  - simpl. lia.
Qed.
