(** Theorems about swaths that share their lines. *)
From Coq Require Import List Arith ZArith Bool Lia Permutation.
From Verif Require Import Outcome ListAux Swath_Model Alias_Model Alias_Spec
  Alias_Proofs Alias_Proofs2 Alias_Proofs3 Alias_Proofs4 Alias_Proofs5 Alias_Proofs6 Alias_Proofs7.
Import ListNotations.

(** Concrete instance used by the examples: points and widths are integers,
    the text keeps them, and std::sort leaves sorted ids where they are. *)
Definition zstep := step (P := Z) (W := Z) (fun w => (w <=? 0)%Z) 0%Z 0%Z Z.ltb (fun p => p)
  (fun ids => seq 0 (length ids)) (fun r l => Ok (map (Z.add r) l)).
Definition zrun (ops : list (@op Z Z)) := foldM zstep ops st_init.
Definition zvrun (ops : list (@op Z Z)) := vrun (P := Z) (W := Z) (fun w => (w <=? 0)%Z) 0%Z 0%Z Z.ltb (fun p => p)
  (fun ids => seq 0 (length ids)) (fun r l => Ok (map (Z.add r) l)) ops (views st_init).
Definition znew (c : nat) (id : Z) (l : list Z) : @op Z Z := EmplaceNew c l 1%Z id MAINLAND.
(** What the container [c] shows after a program: paths and directions. *)
Definition zshow (o : outcome (@state Z Z)) (c : nat) : list (list Z * bool) :=
  match o with
  | Ok st => map (fun s => (sw_path s, sw_dir s)) (v_cont (views st) c)
  | _ => []
  end.

(** C13: a copy of a swath, of a container, or of the swaths of a cell shares
    the line of the original.  Reversing the copy reverses the points of the
    original and leaves its direction flag; so does appending (which is what
    flatten() does), and so do the lines a swath was made from.  Moving a
    container that has a swath twice moves it twice. *)
Theorem copy_independent_refuted :
  (exists ops, (exists st, zrun ops = Ok st) /\
     ops = [znew 0 0 [1; 2; 3]%Z; CopySwaths 0 1; ReverseSwath 1 0] /\
     zshow (zrun ops) 0 = [([3; 2; 1]%Z, true)] /\
     zshow (zrun ops) 1 = [([3; 2; 1]%Z, false)]) /\
  (exists ops, (exists st, zrun ops = Ok st) /\
     ops = [znew 0 0 [1; 2; 3]%Z; znew 1 1 [7; 8]%Z; NewSwaths 2; Append 2 0; Append 2 1; ReverseDirOdd 2] /\
     zshow (zrun ops) 1 = [([8; 7]%Z, true)] /\
     zshow (zrun ops) 2 = [([1; 2; 3]%Z, true); ([8; 7]%Z, false)]) /\
  (exists ops, (exists st, zrun ops = Ok st) /\
     ops = [NewLine 0 [1; 2; 3]%Z; Emplace 0 0 1%Z 0%Z MAINLAND; ReversePoints 0] /\
     zshow (zrun ops) 0 = [([3; 2; 1]%Z, true)]) /\
  (exists ops, (exists st, zrun ops = Ok st) /\
     ops = [znew 0 0 [1; 2]%Z; PushBack 0 0 0; MoveTo 0 10%Z] /\
     zshow (zrun ops) 0 = [([21; 22]%Z, true); ([21; 22]%Z, true)]).
Proof.
  split; [|split; [|split]]; eexists; (split; [|split; [reflexivity|]]);
  try (eexists; reflexivity); repeat split; reflexivity.
Qed.

(** C189: a program in which no line is changed in place while something else
    points to it gives its variables the values that they would have if every
    variable had its own points; whatever it copies and however long it is. *)
Theorem values_when_unshared :
  forall (P W : Type) (w_nonpos : W -> bool) (w_zero : W) (p_default : P) (p_lt : P -> P -> bool)
    (wkt : P -> P) (sort_perm : list Z -> list nat) (move_points : P -> list P -> outcome (list P)),
  (forall ids, Permutation (sort_perm ids) (seq 0 (length ids))) ->
  forall ops (st : @state P W), well_formed st ->
  careful w_nonpos w_zero p_default p_lt wkt sort_perm move_points st ops ->
  orel (fun st' v' => same_values (views st') v')
    (run w_nonpos w_zero p_default p_lt wkt sort_perm move_points ops st)
    (vrun w_nonpos w_zero p_default p_lt wkt sort_perm move_points ops (views st)).
Proof.
  intros. apply run_value; auto. apply same_refl.
Qed.
(** A program that copies a container, then gives the original a new line. *)
Example values_when_unshared_ex :
  let ops := [znew 0 0 [1; 2]%Z; CopySwaths 0 1; NewLine 0 [5; 6]%Z; SetPath 0 0 0; NewLine 0 []; ReverseSwath 0 0] in
  careful (fun w => (w <=? 0)%Z) 0%Z 0%Z Z.ltb (fun p => p) (fun ids => seq 0 (length ids))
    (fun r l => Ok (map (Z.add r) l)) (@st_init Z Z) ops /\
  zshow (zrun ops) 0 = [([6; 5]%Z, false)] /\ zshow (zrun ops) 1 = [([1; 2]%Z, true)].
Proof.
  split; [|split; reflexivity].
  repeat (split; [intros p Hp; try contradiction|intros st' E; injection E as <-]); try exact I.
  destruct p as [x|c i]; cbn in Hp; [contradiction|]. destruct Hp as [-> ->].
  intros a q H Q. cbn in H. destruct H as (s & E & Es). injection E as <-. cbn in Es. injection Es as <-.
  destruct q as [y|d j]; cbn in Q.
  - unfold set in Q. destruct (y =? 0); discriminate.
  - destruct Q as (t & Et & Pt). unfold set in Et.
    destruct d as [|[|d]]; cbn in Et.
    + destruct j; cbn in Et; [reflexivity|]. destruct j; discriminate.
    + destruct j; cbn in Et; [|destruct j; discriminate]. injection Et as <-. discriminate.
    + destruct j; discriminate.
Qed.

(** C189: in particular every program that clones instead of copying. *)
Theorem values_without_copies :
  forall (P W : Type) (w_nonpos : W -> bool) (w_zero : W) (p_default : P) (p_lt : P -> P -> bool)
    (wkt : P -> P) (sort_perm : list Z -> list nat) (move_points : P -> list P -> outcome (list P)),
  (forall ids, Permutation (sort_perm ids) (seq 0 (length ids))) ->
  forall ops : list (@op P W), Forall (fun o => shares o = false) ops ->
  orel (fun st' v' => same_values (views st') v')
    (run w_nonpos w_zero p_default p_lt wkt sort_perm move_points ops st_init)
    (vrun w_nonpos w_zero p_default p_lt wkt sort_perm move_points ops (views st_init)).
Proof.
  intros. apply values_when_unshared; auto using init_wf.
  apply alone_careful; auto using init_wf, init_alone.
Qed.
Example values_without_copies_ex :
  let ops := [znew 0 0 [3; 2]%Z; znew 0 1 [7; 8]%Z; CloneSwaths 0 1; Sort 1; ReverseDirOdd 1; MoveTo 0 10%Z;
              GenSorted Boustrophedon 3%N 0 2] in
  Forall (fun o => shares o = false) ops /\
  zshow (zrun ops) 0 = [([13; 12]%Z, true); ([17; 18]%Z, true)] /\
  zshow (zrun ops) 1 = [([2; 3]%Z, false); ([7; 8]%Z, true)] /\
  zshow (zrun ops) 2 = [([18; 17]%Z, false); ([13; 12]%Z, true)].
Proof. repeat split; try reflexivity. repeat constructor. Qed.

(** C190: two groups of variables that share no line stay so under every
    program whose statements stay within one group or clone from one into the
    other; a part of the program within one group leaves the values of the
    other. *)
Theorem groups_stay_apart :
  forall (P W : Type) (w_nonpos : W -> bool) (w_zero : W) (p_default : P) (p_lt : P -> P -> bool)
    (wkt : P -> P) (sort_perm : list Z -> list nat) (move_points : P -> list P -> outcome (list P)),
  (forall ids, Permutation (sort_perm ids) (seq 0 (length ids))) ->
  forall (gl gc : nat -> bool) ops (st st' : @state P W), well_formed st ->
  let inside o := within (fun x => gl x = true) (fun c => gc c = true) o in
  let outside o := within (fun x => gl x = false) (fun c => gc c = false) o in
  apart (fun x => gl x = true) (fun c => gc c = true) st ->
  run w_nonpos w_zero p_default p_lt wkt sort_perm move_points ops st = Ok st' ->
  (Forall (fun o => inside o \/ outside o \/ makes_anew o) ops ->
     well_formed st' /\ apart (fun x => gl x = true) (fun c => gc c = true) st') /\
  (Forall inside ops ->
     (forall x, gl x = false -> v_line (views st') x = v_line (views st) x) /\
     (forall c, gc c = false -> v_cont (views st') c = v_cont (views st) c)) /\
  (Forall outside ops ->
     (forall x, gl x = true -> v_line (views st') x = v_line (views st) x) /\
     (forall c, gc c = true -> v_cont (views st') c = v_cont (views st) c)).
Proof.
  intros P W w_nonpos w_zero p_default p_lt wkt sort_perm move_points HP gl gc ops st st' Wf inside outside Ap R.
  split; [|split].
  - intro F. split; [exact (run_wf w_nonpos w_zero p_default p_lt wkt sort_perm move_points HP ops st st' Wf R)|].
    exact (groups_run w_nonpos w_zero p_default p_lt wkt sort_perm move_points HP gl gc ops st st' Wf F Ap R).
  - intro F. destruct (run_apart w_nonpos w_zero p_default p_lt wkt sort_perm move_points HP
      _ _ ops st st' Wf F Ap R) as (_ & A & B).
    split; intros; [apply A|apply B]; congruence.
  - intro F. apply (proj1 (apart_swap gl gc st)) in Ap.
    destruct (run_apart w_nonpos w_zero p_default p_lt wkt sort_perm move_points HP
      _ _ ops st st' Wf F Ap R) as (_ & A & B).
    split; intros; [apply A|apply B]; unfold isF; congruence.
Qed.
Example groups_stay_apart_ex :
  apart (fun _ => false = true) (fun c => (c =? 1) = true) (@st_init Z Z) /\
  zshow (zrun [znew 0 0 [1; 2]%Z; CopySwaths 0 2; CloneSwaths 0 1; ReverseSwath 1 0; MoveTo 2 10%Z]) 1 = [([2; 1]%Z, false)] /\
  zshow (zrun [znew 0 0 [1; 2]%Z; CopySwaths 0 2; CloneSwaths 0 1; ReverseSwath 1 0; MoveTo 2 10%Z]) 0 = [([11; 12]%Z, true)].
Proof.
  split; [|split; reflexivity]. intros p q a Gp _ Hp _. destruct p as [x|c i]; cbn in *; [discriminate|].
  destruct Hp as (s & E & _). destruct i; discriminate.
Qed.

(** C190: a clone shares no line with any other variable. *)
Theorem clone_apart :
  forall (P W : Type) (w_nonpos : W -> bool) (w_zero : W) (p_default : P) (p_lt : P -> P -> bool)
    (wkt : P -> P) (sort_perm : list Z -> list nat) (move_points : P -> list P -> outcome (list P)),
  (forall ids, Permutation (sort_perm ids) (seq 0 (length ids))) ->
  forall (st st' : @state P W) c d o, well_formed st ->
  (o = CloneSwaths c d \/ exists k v, o = GenSorted k v c d) ->
  step w_nonpos w_zero p_default p_lt wkt sort_perm move_points st o = Ok st' ->
  apart (fun _ => False) (fun e => e = d) st' /\
  (forall i, unshared st' (InSwaths d i)).
Proof.
  intros P W w_nonpos w_zero p_default p_lt wkt sort_perm move_points HP st st' c d o Wf Ho E.
  assert (M : makes_anew o) by (destruct Ho as [->|(k & v & ->)]; exact I).
  pose proof (step_framed w_nonpos w_zero p_default p_lt wkt sort_perm move_points HP _ _ _ Wf E) as Fr.
  pose proof (step_wf w_nonpos w_zero p_default p_lt wkt sort_perm move_points HP _ _ _ Wf E) as Wf'.
  assert (F : NoDup (addrs (st_cont st' d)) /\
              (forall a, In a (addrs (st_cont st' d)) -> length (st_heap st) <= a) /\
              (forall e, e <> d -> st_cont st' e = st_cont st e) /\ (forall x, st_line st' x = st_line st x)).
  { destruct Ho as [->|(k & v & ->)]; cbn [step] in E.
    - pose proof (clone_list w_nonpos w_zero wkt (st_cont st c) (st_heap st) (wf_forall st c Wf)) as CL.
      destruct (hss_clone w_nonpos w_zero wkt (st_heap st) (st_cont st c)) as [[l' h']| | |]; cbn [bind] in E; try discriminate.
      injection E as <-. inversion CL as [r0 v0 [F0 _] E0 E1| | |]; subst. cbn [fst snd] in F0.
      apply fresh_from_result in F0. destruct F0 as (F1 & F2 & F3 & F4 & F5). cbn [fst snd st_cont st_line] in *.
      rewrite set_same. repeat split; auto. intros e N. apply set_other; auto.
    - pose proof (gen_ok w_nonpos w_zero p_default p_lt wkt sort_perm HP k (st_heap st) (st_cont st c) v (wf_forall st c Wf)) as G.
      destruct (h_genSortedSwaths _ _ _ _ _ _ k (st_heap st) (st_cont st c) v) as [[l' h']| | |];
        cbn [bind] in E; try discriminate.
      injection E as <-. inversion G as [r0 v0 [F0 _] E0 E1| | |]; subst.
      destruct F0 as (F1 & F2 & F3 & F4 & F5). cbn [fst snd st_cont st_line] in *.
      rewrite set_same. repeat split; auto. intros e N. apply set_other; auto. }
  destruct F as (ND & Fresh & Cs & Ls).
  assert (Ap : apart (fun _ => False) (fun e => e = d) st').
  { intros p q a Gp Gq Hp Hq. destruct p as [x|e i]; cbn in Gp; [contradiction|]. subst e.
    assert (La : length (st_heap st) <= a) by (apply Fresh, in_addrs_holds; eauto).
    assert (Hq' : holds st q a).
    { destruct q as [y|e j]; cbn in *; [rewrite <- Ls; auto|]. rewrite <- Cs by auto. auto. }
    pose proof (holds_lt st q a Wf Hq'). lia. }
  split; auto. intros i a q Hp Hq. destruct q as [y|e j].
  - exfalso. apply (Ap (InSwaths d i) (InLine y) a); auto. reflexivity.
  - destruct (Nat.eq_dec e d) as [->|N].
    + f_equal. destruct Hp as (s & Es & Ps), Hq as (t & Et & Pt).
      eapply (nodup_index _ _ (wf_forall st' d Wf') ND); eauto.
    + exfalso. apply (Ap (InSwaths d i) (InSwaths e j) a); auto. reflexivity.
Qed.
Example clone_apart_ex :
  exists st st', zrun [znew 0 0 [1; 2]%Z; PushBack 0 0 0] = Ok st /\ well_formed st /\
    zstep st (CloneSwaths 0 1) = Ok st' /\
    ~ unshared st (InSwaths 0 0) /\ unshared st' (InSwaths 1 0).
Proof.
  pose (st := mkState [[1; 2]%Z] (fun _ => None)
    (set (set (fun _ => []) 0 [mkSwath nat Z 0%Z [0] 1%Z true MAINLAND]) 0
       [mkSwath nat Z 0%Z [0] 1%Z true MAINLAND; mkSwath nat Z 0%Z [0] 1%Z true MAINLAND])).
  assert (Wf : well_formed st).
  { split; cbn; [discriminate|]. intros c s H. unfold set in H. destruct (c =? 0); [|contradiction].
    destruct H as [<-|[<-|[]]]; exists 0; cbn; auto. }
  destruct (zstep st (CloneSwaths 0 1)) as [st'| | |] eqn:E; [|discriminate E|discriminate E|discriminate E].
  exists st, st'. split; [reflexivity|]. split; [exact Wf|]. split; [exact E|]. split.
  - intro U. assert (X : InSwaths 0 1 = InSwaths 0 0); [|discriminate].
    apply (U 0); eexists; split; reflexivity.
  - eapply (clone_apart Z Z (fun w => (w <=? 0)%Z) 0%Z 0%Z Z.ltb (fun p => p) (fun ids => seq 0 (length ids))
      (fun r l => Ok (map (Z.add r) l))); [reflexivity|exact Wf|left; reflexivity|exact E].
Qed.

(** C191: exactly what reversing one swath does: the swath itself is reversed;
    every other swath with the same line gets its points reversed and keeps its
    direction flag; every LineString with that line is reversed; everything
    else is as before. *)
Theorem reverse_shared :
  forall (P W : Type) (w_nonpos : W -> bool) (w_zero : W) (p_default : P) (p_lt : P -> P -> bool)
    (wkt : P -> P) (sort_perm : list Z -> list nat) (move_points : P -> list P -> outcome (list P))
    (st st' : @state P W) c i s a, well_formed st ->
  nth_error (st_cont st c) i = Some s -> sw_path s = [a] ->
  step w_nonpos w_zero p_default p_lt wkt sort_perm move_points st (ReverseSwath c i) = Ok st' ->
  nth_error (v_cont (views st') c) i = Some (swath_reverse (h_value (st_heap st) s)) /\
  (forall d j t, (d, j) <> (c, i) -> nth_error (st_cont st d) j = Some t ->
     nth_error (v_cont (views st') d) j =
     Some (if list_eq_dec Nat.eq_dec (sw_path t) [a]
           then swath_setPath (h_value (st_heap st) t) (rev (h_path (st_heap st) t))
           else h_value (st_heap st) t)) /\
  (forall x b, st_line st x = Some b ->
     v_line (views st') x =
     Some (if Nat.eq_dec b a then rev (deref (st_heap st) b) else deref (st_heap st) b)).
Proof. intros. eapply reverse_effect; eauto. Qed.
Example reverse_shared_ex :
  zshow (zrun [znew 0 0 [1; 2]%Z; znew 0 1 [5; 6]%Z; CopySwaths 0 1; ReverseSwath 0 0]) 1
  = [([2; 1]%Z, true); ([5; 6]%Z, true)].
Proof. reflexivity. Qed.

(** C191: moving a container moves each line once for every swath of the
    container that points to it. *)
Theorem move_shared :
  forall (P W : Type) (w_nonpos : W -> bool) (w_zero : W) (p_default : P) (p_lt : P -> P -> bool)
    (wkt : P -> P) (sort_perm : list Z -> list nat) (g : P -> list P -> list P)
    (st : @state P W) c r, well_formed st ->
  exists st',
    step w_nonpos w_zero p_default p_lt wkt sort_perm (fun r l => Ok (g r l)) st (MoveTo c r) = Ok st' /\
    st_line st' = st_line st /\ st_cont st' = st_cont st /\
    forall p a, holds st p a ->
      deref (st_heap st') a
      = Nat.iter (count_occ Nat.eq_dec (flat_map sw_path (st_cont st c)) a) (g r) (deref (st_heap st) a).
Proof.
  intros P W w_nonpos w_zero p_default p_lt wkt sort_perm g st c r Wf.
  destruct (move_count (fun r l => Ok (g r l)) (g r) r (fun _ => eq_refl) (st_cont st c) (st_heap st)
              (wf_forall st c Wf)) as (h' & E & L & D).
  exists (mkState h' (st_line st) (st_cont st)). cbn [step]. rewrite E. cbn [bind]. repeat split; auto.
  intros p a Hp. cbn [st_heap]. apply D. eapply holds_lt; eauto.
Qed.
Example move_shared_ex :
  zshow (zrun [znew 0 0 [1; 2]%Z; PushBack 0 0 0; PushBack 0 0 0; znew 0 1 [5]%Z; MoveTo 0 10%Z]) 0
  = [([31; 32]%Z, true); ([31; 32]%Z, true); ([31; 32]%Z, true); ([15]%Z, true)].
Proof. reflexivity. Qed.

(** C190: cloning the swaths of all cells gives every swath a new line. *)
Theorem cells_clone :
  forall (P W : Type) (w_nonpos : W -> bool) (w_zero : W) (wkt : P -> P)
    (d : list (list (swath nat W))) (h : @heap P),
  Forall (Forall (fun s => exists a, sw_path s = [a] /\ a < length h)) d ->
  orel (fun r v =>
      firstn (length h) (snd r) = h /\
      flat_map sw_path (concat (fst r)) = seq (length h) (length (concat d)) /\
      map (map (h_value (snd r))) (fst r) = v)
    (hsbc_clone w_nonpos w_zero wkt h d)
    (sbc_clone w_nonpos w_zero wkt (map (map (h_value h)) d)).
Proof.
  intros P W w_nonpos w_zero wkt d h H.
  destruct (cells_clone_ok w_nonpos w_zero wkt d h H) as [r v ((t & Et) & A & B & C & D)| | |]; constructor.
  repeat split; auto. rewrite Et, firstn_app, Nat.sub_diag, firstn_all. cbn. apply app_nil_r.
Qed.
Example cells_clone_ex :
  let s := mkSwath nat Z 0%Z [0] 1%Z true MAINLAND in
  hsbc_clone (fun w => (w <=? 0)%Z) 0%Z (fun p : Z => p) [[1; 2]%Z] [[s; s]; []; [s]]
  = Ok ([[mkSwath nat Z 0%Z [1] 1%Z true MAINLAND; mkSwath nat Z 0%Z [2] 1%Z true MAINLAND]; [];
         [mkSwath nat Z 0%Z [3] 1%Z true MAINLAND]],
        [[1; 2]; [1; 2]; [1; 2]; [1; 2]]%Z).
Proof. reflexivity. Qed.

(** C192: ordering works on a clone: whatever is shared, the result has the
    values that the ordering of Swath_Model gives for the values of the input,
    and every other variable keeps its value. *)
Theorem ordering_leaves_input :
  forall (P W : Type) (w_nonpos : W -> bool) (w_zero : W) (p_default : P) (p_lt : P -> P -> bool)
    (wkt : P -> P) (sort_perm : list Z -> list nat) (move_points : P -> list P -> outcome (list P)),
  (forall ids, Permutation (sort_perm ids) (seq 0 (length ids))) ->
  forall (st st' : @state P W) k v c d, well_formed st ->
  step w_nonpos w_zero p_default p_lt wkt sort_perm move_points st (GenSorted k v c d) = Ok st' ->
  genSortedSwaths w_nonpos w_zero p_default p_lt wkt (sort_by_ids sort_perm) k (v_cont (views st) c) v
    = Ok (v_cont (views st') d) /\
  (forall x, v_line (views st') x = v_line (views st) x) /\
  (forall e, e <> d -> v_cont (views st') e = v_cont (views st) e).
Proof.
  intros P W w_nonpos w_zero p_default p_lt wkt sort_perm move_points HP st st' k v c d Wf E.
  pose proof (step_value w_nonpos w_zero p_default p_lt wkt sort_perm move_points HP st (GenSorted k v c d) Wf) as S0.
  rewrite E in S0. cbn [vstep] in S0.
  specialize (S0 ltac:(intros p []; contradiction)).
  destruct (genSortedSwaths _ _ _ _ _ _ k (v_cont (views st) c) v) as [r| | |]; cbn [bind] in S0; inversion S0; subst.
  destruct H1 as [A B]. cbn [v_line v_cont] in *. split; [|split].
  - rewrite B, set_same. reflexivity.
  - exact A.
  - intros e N. rewrite B, set_other by auto. reflexivity.
Qed.
Example ordering_leaves_input_ex :
  let ops := [znew 0 0 [3; 2]%Z; PushBack 0 0 0; GenSorted Boustrophedon 0%N 0 1] in
  zshow (zrun ops) 0 = [([3; 2]%Z, true); ([3; 2]%Z, true)] /\
  zshow (zrun ops) 1 = [([2; 3]%Z, false); ([3; 2]%Z, true)].
Proof. split; reflexivity. Qed.

Print Assumptions copy_independent_refuted.
Print Assumptions values_when_unshared.
Print Assumptions values_without_copies.
Print Assumptions groups_stay_apart.
Print Assumptions clone_apart.
Print Assumptions reverse_shared.
Print Assumptions ordering_leaves_input.
Print Assumptions move_shared.
Print Assumptions cells_clone.
