(** Proofs about the text format of doubles: the texts. *)
From Coq Require Import Ascii String ZArith Bool Arith Lia Reals Lra Floats SpecFloat List.
From Verif Require Import Outcome Num Point_Model Path_Model Text_Model Text_Spec Text_Proofs Codec_Model Codec_Spec Codec_Proofs.
Import ListNotations.
Local Open Scope Z_scope.

Definition all_digits (s : text) : Prop := forall c, In c s -> is_digit c = true.
(** What may follow a number. *)
Definition stops (s : text) : Prop := forall c t, s = c :: t ->
  is_digit c = false /\ Ascii.eqb c "." = false /\ Ascii.eqb c "e" = false /\ Ascii.eqb c "E" = false.

Lemma all_digits_app a b : all_digits a -> all_digits b -> all_digits (a ++ b).
Proof. intros A B c C. apply in_app_iff in C. destruct C; auto. Qed.
Lemma all_digits_app_inv a b : all_digits (a ++ b) -> all_digits a /\ all_digits b.
Proof. intros H. split; intros c C; apply H, in_app_iff; auto. Qed.

Lemma digit_ok d : is_digit (digit (d mod 10)) = true /\ undigit (digit (d mod 10)) = d mod 10.
Proof. destruct (digit_val (d mod 10) (Z.mod_pos_bound d 10 ltac:(lia))) as [_ H]. exact H. Qed.

(** Values of digit texts. *)
Lemma read_acc s : all_digits s -> forall acc, read_digits acc s = acc * 10 ^ Z.of_nat (length s) + read_digits 0 s.
Proof.
  induction s as [|c s IH]; intros A acc; cbn [read_digits length].
  - change (10 ^ Z.of_nat 0) with 1. lia.
  - rewrite (A c (or_introl eq_refl)). assert (A' : all_digits s) by (intros x X; apply A; now right).
    rewrite IH by exact A'. rewrite (IH A' (10 * 0 + undigit c)). rewrite Nat2Z.inj_succ, Z.pow_succ_r by lia. lia.
Qed.
Lemma read_split a b : all_digits a -> all_digits b ->
  read_digits 0 (a ++ b) = read_digits 0 a * 10 ^ Z.of_nat (length b) + read_digits 0 b.
Proof. intros A B. rewrite read_app by exact A. now apply read_acc. Qed.

Lemma digits_n_ok n : forall d, all_digits (digits_n n d) /\ length (digits_n n d) = n /\
  (0 <= d < 10 ^ Z.of_nat n -> read_digits 0 (digits_n n d) = d).
Proof.
  induction n as [|n IH]; intros d.
  - split; [intros c []|]. split; [reflexivity|]. change (10 ^ Z.of_nat 0) with 1. cbn. lia.
  - destruct (IH (d / 10)) as [A [L V]]. destruct (digit_ok d) as [D1 D2]. cbn [digits_n].
    assert (AD : all_digits [digit (d mod 10)]) by (intros c [<-|[]]; exact D1).
    split; [now apply all_digits_app|]. split; [rewrite app_length, L; cbn; lia|].
    intros H. rewrite Nat2Z.inj_succ, Z.pow_succ_r in H by lia. rewrite read_split by assumption.
    pose proof (Z.div_mod d 10 ltac:(lia)). pose proof (Z.mod_pos_bound d 10 ltac:(lia)).
    rewrite V by lia. cbn [read_digits length]. rewrite D1, D2. change (10 ^ Z.of_nat 1) with 10. lia.
Qed.

Lemma strip0_ok s : exists k, s = strip0 s ++ repeat "0"%char k.
Proof.
  induction s as [|c s [k E]]; [now exists 0%nat|]. cbn [strip0]. destruct (strip0 s) as [|c1 t] eqn:ES.
  - destruct (Ascii.eqb_spec c "0") as [->|N].
    + exists (S k). cbn [repeat app]. now rewrite E at 1.
    + exists k. cbn [app]. now rewrite E at 1.
  - exists k. cbn [app]. now rewrite E at 1.
Qed.
Lemma zeros_value k : all_digits (repeat "0"%char k) /\ read_digits 0 (repeat "0"%char k) = 0.
Proof.
  split; [intros c C; apply repeat_spec in C; now subst|]. induction k as [|k IH]; [reflexivity|]. cbn [repeat read_digits]. exact IH.
Qed.

(** Digits with the zeros at the end of the fraction dropped. *)
Lemma strip_value i f : all_digits i -> all_digits f -> exists k : nat, (length f = length (strip0 f) + k)%nat /\ all_digits (strip0 f) /\
  read_digits 0 (i ++ f) = read_digits 0 (i ++ strip0 f) * 10 ^ Z.of_nat k.
Proof.
  intros I F. destruct (strip0_ok f) as [k E]. exists k. destruct (zeros_value k) as [ZD ZV].
  assert (FS : all_digits (strip0 f)) by (rewrite E in F; now apply all_digits_app_inv in F).
  split; [rewrite E at 1; now rewrite app_length, repeat_length|]. split; auto.
  rewrite E at 1. rewrite app_assoc, read_split by (auto; now apply all_digits_app). rewrite ZV, repeat_length. lia.
Qed.

(** Reading the parts of a number. *)
Lemma span_digits_ok ds : forall rest, all_digits ds -> (forall c t, rest = c :: t -> is_digit c = false) -> span_digits (ds ++ rest) = (ds, rest).
Proof.
  induction ds as [|c ds IH]; intros rest A R; cbn [app span_digits].
  - destruct rest as [|c t]; [reflexivity|]. cbn [span_digits]. now rewrite (R c t eq_refl).
  - rewrite (A c (or_introl eq_refl)). rewrite IH; auto. intros x X; apply A; now right.
Qed.

Lemma digit_plain c : is_digit c = true -> is_space c = false /\ Ascii.eqb c "-" = false /\ Ascii.eqb c "+" = false /\
  Ascii.eqb c "." = false /\ Ascii.eqb c "e" = false /\ Ascii.eqb c "E" = false.
Proof. destruct c as [[] [] [] [] [] [] [] []]; cbn; intros H; try discriminate; repeat split. Qed.

Definition sign_text (s : bool) : text := if s then txt "-" else [].
Lemma span_start neg I X : I <> [] -> all_digits I -> span_sign (skip_spaces (sign_text neg ++ I ++ X)) = (neg, I ++ X).
Proof.
  intros N A. destruct I as [|c I]; [easy|]. pose proof (A c (or_introl eq_refl)) as D. apply digit_plain in D. destruct D as [D1 [D2 [D3 _]]].
  destruct neg; cbn [sign_text list_ascii_of_string app].
  - change (skip_spaces ("-"%char :: c :: I ++ X)) with ("-"%char :: c :: I ++ X). reflexivity.
  - cbn [skip_spaces]. rewrite D1. cbn [span_sign]. now rewrite D2, D3.
Qed.

Lemma with_point_frac i f X : all_digits i -> all_digits f -> (forall c t, X = c :: t -> is_digit c = false /\ Ascii.eqb c "." = false) ->
  exists s1, span_digits (with_point i f ++ X) = (i, s1) /\ span_frac s1 = (f, X).
Proof.
  intros I F HX. destruct f as [|c f].
  - exists X. split; [apply span_digits_ok; auto; intros c t E; now apply (HX c t)|]. unfold span_frac. destruct X as [|c t]; [reflexivity|].
    now rewrite (proj2 (HX c t eq_refl)).
  - exists ("."%char :: (c :: f) ++ X). split.
    + unfold with_point. rewrite <- app_assoc. cbn [app]. apply span_digits_ok; auto. intros x t E. now injection E as <- _.
    + cbn [span_frac]. change (Ascii.eqb "." ".") with true. cbn iota. apply span_digits_ok; auto. intros x t E. now apply (HX x t).
Qed.

Lemma exp_digits x : 0 <= x -> exists ds, (if x <? 10 then digits_n 2 x else dec (Z.to_nat (Z.log2 x)) x) = ds /\ ds <> [] /\ all_digits ds /\ read_digits 0 ds = x.
Proof.
  intros H. eexists. split; [reflexivity|]. destruct (Z.ltb_spec x 10) as [L|L].
  - destruct (digits_n_ok 2 x) as [A [B V]]. split; [intros E; rewrite E in B; discriminate|]. split; auto. apply V. change (10 ^ Z.of_nat 2) with 100. lia.
  - pose proof (dec_full x H) as D. destruct (decimal_digits _ _ D) as [N [_ A]]. split; auto. split; auto.
    rewrite <- (app_nil_r (dec _ _)). apply (read_decimal _ _ D). discriminate.
Qed.
Lemma span_exp_ok x rest : stops rest -> span_exp (exp_text x ++ rest) = Some (x, rest).
Proof.
  intros R. unfold exp_text. destruct (exp_digits (Z.abs x) (Z.abs_nonneg x)) as [ds [E [N [A V]]]]. rewrite E.
  assert (SD : span_digits (ds ++ rest) = (ds, rest)) by (apply span_digits_ok; auto; intros c t K; now apply (R c t)).
  destruct ds as [|c ds]; [easy|]. destruct (Z.ltb_spec x 0) as [L|L]; cbn [list_ascii_of_string app span_exp].
  - change (Ascii.eqb "e" "e" || Ascii.eqb "e" "E")%bool with true. cbn iota. cbn [span_sign].
    change (Ascii.eqb "-" "-") with true. cbn iota. cbn [app] in SD. rewrite SD. rewrite V. f_equal. f_equal. lia.
  - change (Ascii.eqb "e" "e" || Ascii.eqb "e" "E")%bool with true. cbn iota. cbn [span_sign].
    change (Ascii.eqb "+" "-") with false. change (Ascii.eqb "+" "+") with true. cbn iota. cbn [app] in SD. rewrite SD. rewrite V. f_equal. f_equal. lia.
Qed.
Lemma span_exp_none rest : stops rest -> span_exp rest = Some (0, rest).
Proof. intros R. destruct rest as [|c t]; [reflexivity|]. cbn [span_exp]. destruct (R c t eq_refl) as [_ [_ [-> ->]]]. reflexivity. Qed.

(** What operator>> makes of a number followed by something else. *)
Definition converted (s : bool) (num den : Z) (rest : text) : option (spec_float * text) :=
  match round_sf s num den with Some v => Some (v, rest) | None => None end.

Lemma read_number neg i f ex x rest num den : i <> [] -> all_digits i -> all_digits f -> stops rest ->
  (ex = [] /\ x = 0 \/ ex = exp_text x) -> read_digits 0 (i ++ f) <> 0 ->
  scale (read_digits 0 (i ++ f)) 1 10 (x - Z.of_nat (length f)) = (num, den) ->
  read_double (sign_text neg ++ with_point i f ++ ex ++ rest) = converted neg num den rest.
Proof.
  intros N I F R EX NZ SC.
  assert (HX : forall c t, ex ++ rest = c :: t -> is_digit c = false /\ Ascii.eqb c "." = false).
  { destruct EX as [[-> _]| ->]; intros c t E.
    - cbn [app] in E. destruct (R c t E) as [A [B _]]. auto.
    - unfold exp_text in E. destruct (x <? 0); injection E as <- _; split; reflexivity. }
  destruct (with_point_frac i f (ex ++ rest) I F HX) as [s1 [S1 S2]].
  assert (W : exists X', with_point i f ++ ex ++ rest = i ++ X').
  { unfold with_point. destruct f; [now exists (ex ++ rest)|]. rewrite <- app_assoc. now eexists. }
  destruct W as [X' W].
  assert (IF : i ++ f <> []) by (now destruct i).
  unfold read_double. rewrite W. rewrite (span_start neg i X' N I). rewrite <- W, S1, S2.
  assert (SE : span_exp (ex ++ rest) = Some (x, rest)).
  { destruct EX as [[-> ->]| ->]; [now apply span_exp_none|now apply span_exp_ok]. }
  rewrite SE. destruct (i ++ f) as [|c l] eqn:EIF; [easy|]. rewrite <- EIF in *.
  rewrite (proj2 (Z.eqb_neq _ _) NZ). rewrite SC. reflexivity.
Qed.

(** The text of a positive number. *)
Lemma read_positive P neg num den d x rest : (1 <= P)%nat -> (0 < num) -> (0 < den) -> sig_digits P num den = (d, x) -> stops rest ->
  exists n k, 0 < n /\ 0 < k /\ (IZR n / IZR k = IZR d * pow10 (x - (Z.of_nat P - 1)))%R /\
    read_double (sign_text neg ++ g_positive P num den ++ rest) = converted neg n k rest.
Proof.
  intros HP HN HD SD R. destruct (sig_digits_ok P num den d x HP HN HD SD) as [[D1 D2] _].
  assert (Dp : 0 < d) by (assert (0 < 10 ^ (Z.of_nat P - 1)) by (apply Z.pow_pos_nonneg; lia); lia).
  destruct (digits_n_ok P d) as [A [L V]]. specialize (V ltac:(lia)). set (ds := digits_n P d) in *.
  assert (T : exists i f z ex xx, g_positive P num den = with_point i (strip0 f) ++ ex /\ i <> [] /\ all_digits i /\ all_digits f /\
    (ex = [] /\ xx = 0 \/ ex = exp_text xx) /\ i ++ f = repeat "0"%char z ++ ds /\ xx - Z.of_nat (length f) = x - (Z.of_nat P - 1)).
  { unfold g_positive. rewrite SD. fold ds. destruct (zeros_value (Z.to_nat (- x - 1))) as [ZD ZV].
    assert (FS : forall n, all_digits (firstn n ds) /\ all_digits (skipn n ds)) by (intros n; apply all_digits_app_inv; now rewrite firstn_skipn).
    destruct ((-4 <=? x) && (x <? Z.of_nat P))%bool eqn:RG; [destruct (Z.leb_spec 0 x) as [X|X]|].
    - apply andb_true_iff in RG. destruct RG as [_ RG]. apply Z.ltb_lt in RG.
      exists (firstn (Z.to_nat (x + 1)) ds), (skipn (Z.to_nat (x + 1)) ds), 0%nat, [], 0.
      split; [now rewrite app_nil_r|]. split; [intros E; apply (f_equal (@length _)) in E; rewrite firstn_length, L in E; cbn [length] in E; lia|].
      split; [apply FS|]. split; [apply FS|]. split; [now left|]. split; [apply firstn_skipn|]. rewrite skipn_length, L. lia.
    - exists (txt "0"), (repeat "0"%char (Z.to_nat (- x - 1)) ++ ds), (S (Z.to_nat (- x - 1))), [], 0.
      split; [now rewrite app_nil_r|]. split; [discriminate|]. split; [intros c [<-|[]]; reflexivity|]. split; [now apply all_digits_app|].
      split; [now left|]. split; [reflexivity|]. rewrite app_length, repeat_length, L. lia.
    - exists (firstn 1 ds), (skipn 1 ds), 0%nat, (exp_text x), x.
      split; [reflexivity|]. split; [intros E; apply (f_equal (@length _)) in E; rewrite firstn_length, L in E; cbn [length] in E; lia|].
      split; [apply FS|]. split; [apply FS|]. split; [now right|]. split; [apply firstn_skipn|]. rewrite skipn_length, L. lia. }
  destruct T as [i [f [z [ex [xx [E [N [I [F [EX [C K]]]]]]]]]]].
  destruct (strip_value i f I F) as [k [LK [SF SV]]].
  assert (VAL : read_digits 0 (i ++ f) = d).
  { rewrite C. destruct (zeros_value z) as [ZD ZV]. rewrite read_split by auto. rewrite ZV, V. lia. }
  assert (KP : 0 < 10 ^ Z.of_nat k) by (apply Z.pow_pos_nonneg; lia).
  assert (NP : 0 < read_digits 0 (i ++ strip0 f)) by nia.
  destruct (scale (read_digits 0 (i ++ strip0 f)) 1 10 (xx - Z.of_nat (length (strip0 f)))) as [n dn] eqn:SC.
  destruct (scale_ok 10 ltac:(lia) _ _ _ _ _ NP Z.lt_0_1 SC) as [N1 [N2 Q]].
  exists n, dn. split; auto. split; auto. split.
  - rewrite Q. change (pw 10) with pow10. unfold Rdiv. rewrite Rinv_1, Rmult_1_r.
    rewrite <- VAL, SV, mult_IZR, <- (pw_IZR 10) by lia. change (pw 10) with pow10. rewrite Rmult_assoc. f_equal.
    unfold pow10. rewrite <- powerRZ_add by lra. f_equal. lia.
  - rewrite E, <- app_assoc. eapply read_number; eauto. lia.
Qed.
