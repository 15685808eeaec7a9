(** Theorems about the setters of a field (property C272) and texts without an EPSG number (C141). *)
From Coq Require Import Ascii String ZArith Bool Arith Lia Reals Lra List.
From Verif Require Import Outcome Num Point_Model Container_Model Container_Spec Container_Proofs Container_Props
  Angle_Spec Text_Model Text_Spec Text_Proofs Field_Model Field_Spec Field_Proofs Field_Props.
Import ListNotations.
Local Open Scope nat_scope.

(** A call of a setter of Field. *)
Inductive fcall := CId (s : text) | CCrs (s : text) | CPrev (s : text) | CRef (p : pt) | CCells (c : cells RNum) | CEpsg (z : Z).

(** What a call makes of a field: the functions of the model. *)
Definition fcall_run (f : rfield) (x : fcall) : rfield :=
  match x with
  | CId s => field_setId f s | CCrs s => field_setCRS f s | CPrev s => field_setPrevCRS f s
  | CRef p => field_setRefPoint f p | CCells c => field_setField f c | CEpsg z => setEPSGCoordSystem f z
  end.

(** The value given by the last call in [l] that [pick] finds one in, [d] when there is none. *)
Fixpoint last_given {A} (pick : fcall -> option A) (d : A) (l : list fcall) : A :=
  match l with [] => d | x :: l => last_given pick (match pick x with Some a => a | None => d end) l end.

(** What a call gives for each member (src/fields2cover/types/Field.cpp:32-74, 143-145). *)
Definition gives_id x := match x with CId s => Some s | _ => None end.
Definition gives_crs x := match x with CCrs s => Some s | CEpsg z => Some (txt "EPSG:" ++ to_string z) | _ => None end.
Definition gives_prev x := match x with CPrev s => Some s | _ => None end.
Definition gives_ref x := match x with CRef p => Some p | _ => None end.
Definition gives_cells x := match x with CCells c => Some c | _ => None end.

(** C272: after any sequence of setter calls every member is what was last given for it. *)
Theorem field_setters : forall l (f : rfield), let g := fold_left fcall_run l f in
  f_id g = last_given gives_id (f_id f) l /\ f_crs g = last_given gives_crs (f_crs f) l /\
  f_prev g = last_given gives_prev (f_prev f) l /\ f_ref g = last_given gives_ref (f_ref f) l /\
  f_cells g = last_given gives_cells (f_cells f) l.
Proof.
  induction l as [|x l IH]; intro f; [repeat split|].
  cbn [fold_left last_given]. specialize (IH (fcall_run f x)). cbv zeta in *. destruct x; exact IH.
Qed.
Print Assumptions field_setters.
Example field_setters_ex : let g := fold_left fcall_run [CId (txt "a"); CEpsg 4326; CPrev (txt "EPSG:1"); CId (txt "b"); CCrs (txt "x"); CEpsg 7]
    (field_default RNum) in
  f_id g = txt "b" /\ f_crs g = txt "EPSG:7" /\ f_prev g = txt "EPSG:1".
Proof. repeat split. Qed.

(** C272: only setRefPoint and setField move the absolute cells, setRefPoint by the difference of the points. *)
Theorem setters_and_positions : forall (wkt : pt -> pt) (f : rfield),
  (forall x, (forall p, x <> CRef p) -> (forall c, x <> CCells c) -> getCellsAbsPosition RNum wkt (fcall_run f x) = getCellsAbsPosition RNum wkt f) /\
  (forall p, well_formed (f_cells f) -> getCellsAbsPosition RNum wkt (field_setRefPoint f p) = map (map (map (fun q : pt => wkt (mkPoint (N := RNum) (px q + px p)%R (py q + py p)%R (pz q + pz p)%R)))) (f_cells f)).
Proof.
  intros wkt f. split.
  - intros x H1 H2. destruct x; try reflexivity; [now elim (H1 p)|now elim (H2 c)].
  - intros p W. unfold getCellsAbsPosition, cells_add. cbn [f_cells f_ref field_setRefPoint].
    apply wf_image. exact W.
Qed.
Print Assumptions setters_and_positions.

(** C141: "EPSG:", white space, and something that is neither white space nor a sign nor a digit throws. *)
Theorem epsg_bad_start : forall w c s,
  (forall d, In d w -> In d (map ascii_of_nat [9; 10; 11; 12; 13; 32])) ->
  ~ In c (map ascii_of_nat [9; 10; 11; 12; 13; 32]) -> c <> "+"%char -> c <> "-"%char -> ~ In c (txt "0123456789") ->
  getEPSGCoordSystem (txt "EPSG:" ++ w ++ c :: s) = Throw InvalidArgument.
Proof.
  intros w c s W N1 N2 N3 N4. unfold getEPSGCoordSystem.
  assert (I : isCoordSystemEPSG (txt "EPSG:" ++ w ++ c :: s) = true).
  { unfold isCoordSystemEPSG. apply find_is. exists [], (w ++ c :: s). reflexivity. }
  rewrite I. unfold substr. rewrite app_length, (proj2 (Nat.ltb_ge _ _)) by (cbn; lia). cbn [bind].
  change (skipn 5 (txt "EPSG:" ++ w ++ c :: s)) with (w ++ c :: s).
  assert (Nc : is_space c = false /\ is_digit c = false).
  { revert N1 N4. clear. destruct c as [[] [] [] [] [] [] [] []]; cbn; intros; split; try reflexivity; exfalso; intuition. }
  assert (K : skip_spaces (w ++ c :: s) = c :: s).
  { clear I. induction w as [|d w IH]; cbn [app skip_spaces]; [now rewrite (proj1 Nc)|].
    assert (X : is_space d = true).
    { assert (C : In d (map ascii_of_nat [9; 10; 11; 12; 13; 32])) by (apply W; left; auto).
      cbn in C. repeat destruct C as [<-|C]; try reflexivity. destruct C. }
    rewrite X. apply IH. intros; apply W; right; auto. }
  unfold stoi. rewrite K. apply Ascii.eqb_neq in N2, N3. rewrite N2, N3. cbn [orb]. now rewrite (proj2 Nc).
Qed.
Print Assumptions epsg_bad_start.
Example epsg_bad_start_ex : getEPSGCoordSystem (txt "EPSG: x4326") = Throw InvalidArgument.
Proof. apply (epsg_bad_start (txt " ") "x" (txt "4326")); try discriminate; cbn; intuition discriminate. Qed.
Example setters_and_positions_ex : well_formed (f_cells (field_setField (field_default RNum) one_cell)) /\
  f_cells (field_setField (field_default RNum) one_cell) <> [].
Proof. split; [exact one_cell_wf|discriminate]. Qed.
