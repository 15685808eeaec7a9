(** The loop that lays the lines of the swaths, with the numbers of the machine. *)
From Coq Require Import ZArith Bool Reals Lra Floats SpecFloat List.
From Verif Require Import Outcome Num SwathGen_Model Codec_Spec.
Import ListNotations.
Local Open Scope R_scope.

(** The doubles 93, 3.1, 4.4 and 0.2. *)
Definition d93 : float := 93%float.
Definition d3_1 : float := 0x1.8cccccccccccdp+1%float.
Definition d4_4 : float := 0x1.199999999999ap+2%float.
Definition d0_2 : float := 0x1.999999999999ap-3%float.

(** C310 is refuted.  Of two doubles [h] and [w] it asks that the loop lays the
    smallest number of strips of width [w] that reach the height [h], as it does with
    exact numbers ([line_count]).  On a field 93 high with swaths of 3.1 it lays 31
    lines where 30 reach, the last outside the field; on a field 4.4 high with swaths of
    0.2 it lays 22 lines where, of the doubles written so, it takes 23. *)
Theorem line_count_float_refuted :
  (exists (h w : float) xh xw ys, is_value h xh /\ is_value w xw /\ 0 < xw /\ 0 < xh /\
     (forall fuel, (length ys <= fuel)%nat -> sg_curve_ys FNum fuel false h w (sg_curve_y0 FNum w) = Ok ys) /\
     length ys = 31%nat /\ xh <= INR 30 * xw /\
     exists last xl, nth_error ys 30 = Some last /\ is_value last xl /\ xh < xl) /\
  (exists (h w : float) xh xw ys, is_value h xh /\ is_value w xw /\ 0 < xw /\ 0 < xh /\
     (forall fuel, (length ys <= fuel)%nat -> sg_curve_ys FNum fuel false h w (sg_curve_y0 FNum w) = Ok ys) /\
     length ys = 22%nat /\ INR 22 * xw < xh).
Proof.
  assert (Fuel : forall h w n ys y, sg_curve_ys FNum n false h w y = Ok ys -> length ys = n ->
    forall fuel, (n <= fuel)%nat -> sg_curve_ys FNum fuel false h w y = Ok ys).
  { intros h w n. induction n as [|n IH]; intros ys y E L fuel Hf.
    - destruct fuel; cbn [sg_curve_ys] in *; destruct (nltb FNum _ h); try discriminate; auto.
    - destruct fuel as [|fuel]; [inversion Hf|]. cbn [sg_curve_ys] in *.
      destruct (nltb FNum _ h); auto.
      destruct (sg_curve_ys FNum n false h w (nadd FNum y w)) as [r| | |] eqn:E1; try discriminate.
      cbn [bind] in E. injection E as <-. simpl in L. injection L as L.
      rewrite (IH r _ E1 L fuel) by (apply le_S_n; auto). auto. }
  split.
  - exists d93, d3_1.
    exists (IZR 6544293208522752 * pow2 (-46)), (IZR 6980579422424269 * pow2 (-51)).
    destruct (sg_curve_ys FNum 31 false d93 d3_1 (sg_curve_y0 FNum d3_1)) as [ys| | |] eqn:E;
      try (exfalso; vm_compute in E; discriminate).
    exists ys.
    assert (L : length ys = 31%nat) by (vm_compute in E; injection E as <-; reflexivity).
    split. { unfold is_value. replace (Prim2SF d93) with (S754_finite false 6544293208522752 (-46)) by (vm_compute; reflexivity). unfold sf_value; ring. }
    split. { unfold is_value. replace (Prim2SF d3_1) with (S754_finite false 6980579422424269 (-51)) by (vm_compute; reflexivity). unfold sf_value; ring. }
    unfold pow2, powerRZ. replace (Pos.to_nat 51) with (46 + 5)%nat by reflexivity.
    replace (Pos.to_nat 46) with 46%nat by reflexivity. rewrite pow_add.
    assert (P : 0 < / 2 ^ 46) by (apply Rinv_0_lt_compat, pow_lt; lra).
    rewrite Rinv_mult. set (u := / 2 ^ 46) in *. replace (2 ^ 5) with 32 by ring.
    split; [nra|]. split; [nra|].
    split. { rewrite L. apply Fuel; auto. }
    split; auto. split. { replace (INR 30) with 30 by (simpl; ring). nra. }
    vm_compute in E. injection E as <-.
    eexists. exists (IZR 6653364761998129 * pow2 (-46)). split; [reflexivity|]. split.
    { unfold is_value. match goal with |- sf_value ?t _ => let r := eval vm_compute in t in change t with r end. unfold sf_value; ring. }
    unfold pow2, powerRZ. replace (Pos.to_nat 46) with 46%nat by reflexivity. fold u. nra.
  - exists d4_4, d0_2.
    exists (IZR 4953959590107546 * pow2 (-50)), (IZR 7205759403792794 * pow2 (-55)).
    destruct (sg_curve_ys FNum 22 false d4_4 d0_2 (sg_curve_y0 FNum d0_2)) as [ys| | |] eqn:E;
      try (exfalso; vm_compute in E; discriminate).
    exists ys.
    assert (L : length ys = 22%nat) by (vm_compute in E; injection E as <-; reflexivity).
    split. { unfold is_value. replace (Prim2SF d4_4) with (S754_finite false 4953959590107546 (-50)) by (vm_compute; reflexivity). unfold sf_value; ring. }
    split. { unfold is_value. replace (Prim2SF d0_2) with (S754_finite false 7205759403792794 (-55)) by (vm_compute; reflexivity). unfold sf_value; ring. }
    unfold pow2, powerRZ. replace (Pos.to_nat 55) with (50 + 5)%nat by reflexivity.
    replace (Pos.to_nat 50) with 50%nat by reflexivity. rewrite pow_add.
    assert (P : 0 < / 2 ^ 50) by (apply Rinv_0_lt_compat, pow_lt; lra).
    rewrite Rinv_mult. set (u := / 2 ^ 50) in *. replace (2 ^ 5) with 32 by ring.
    split; [nra|]. split; [nra|].
    split. { rewrite L. apply Fuel; auto. }
    split; auto. replace (INR 22) with 22 by (simpl; ring). nra.
Qed.
Print Assumptions line_count_float_refuted.
