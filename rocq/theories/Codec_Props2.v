(** Where loading a saved path stops, for any precision (src/fields2cover/types/Path.cpp:274-344). *)
From Coq Require Import Ascii String ZArith Bool Arith Lia Reals Lra Floats SpecFloat List.
From Verif Require Import Outcome Num Point_Model Path_Model Text_Model Text_Spec Text_Proofs Codec_Model Codec_Spec Codec_Proofs Codec_Proofs2 Codec_Proofs3 Codec_Proofs4 Codec_Props.
Import ListNotations.
Local Open Scope nat_scope.

(** The text of a finite number is read to its end or, when it overflows, not at all. *)
Lemma read_or_overflow P v x rest : sf_value v x -> stops rest ->
  read_double (g_text P v ++ rest) = None \/ exists v', read_double (g_text P v ++ rest) = Some (v', rest).
Proof.
  intros X R. destruct v as [s|s| |s m e]; cbn [sf_value] in X; [|easy|easy|].
  { right. exists (S754_zero s). now apply read_zero. }
  destruct (g_finite P s m e) as [num [den [N [D [Q T]]]]]. rewrite T, <- app_assoc. set (P' := Nat.max 1 P) in *.
  destruct (sig_digits P' num den) as [d xe] eqn:SD.
  destruct (read_positive P' s num den d xe rest ltac:(lia) N D SD R) as [n [k [_ [_ [_ RD]]]]]. rewrite RD. unfold converted.
  destruct (round_sf s n k) as [v'|]; [right; now exists v'|now left].
Qed.

Lemma read_fields_fail2 a t c b sp rest : Forall (fun tc => sep (snd tc)) (a ++ (t, c) :: b) ->
  (forall tc, In tc a -> forall rest, stops rest -> read_double (fst tc ++ rest) = None \/ exists v, read_double (fst tc ++ rest) = Some (v, rest)) ->
  (forall rest, read_double (t ++ rest) = None) -> lead sp ->
  read_doubles (length (a ++ (t, c) :: b)) (sp ++ fields_text (a ++ (t, c) :: b) ++ rest) = None.
Proof.
  revert sp. induction a as [|[t' c'] a IH]; intros sp S G F L; cbn [app] in *.
  - replace (sp ++ fields_text ((t, c) :: b) ++ rest) with (sp ++ t ++ [c] ++ fields_text b ++ rest)
      by (unfold fields_text; cbn [map concat fst snd]; now rewrite <- !app_assoc).
    cbn [length read_doubles]. rewrite (read_lead sp _ L), F. reflexivity.
  - inversion S as [|? ? S1 S2]; subst. cbn [snd] in S1. cbn [length read_doubles].
    replace (sp ++ fields_text ((t', c') :: a ++ (t, c) :: b) ++ rest) with (sp ++ t' ++ [c'] ++ fields_text (a ++ (t, c) :: b) ++ rest)
      by (unfold fields_text; cbn [map concat fst snd]; now rewrite <- !app_assoc).
    rewrite (read_lead sp _ L). destruct (G (t', c') (or_introl eq_refl) ([c'] ++ fields_text (a ++ (t, c) :: b) ++ rest)) as [E|[v E]]; [now apply sep_stops| |].
    { cbn [fst] in E. now rewrite E. }
    cbn [fst] in E. rewrite E. rewrite (IH [c'] S2 (fun tc I => G tc (or_intror I)) F); [reflexivity|]. right; now exists c'.
Qed.

Lemma fail_state2 P s sp rest : ~ Forall finite (numbers s) -> lead sp ->
  read_doubles 8 (sp ++ state_text P s ++ rest) = None.
Proof.
  intros NF L.
  assert (X : exists a f b, numbers s = a ++ f :: b /\ Forall finite a /\ ~ finite f).
  { assert (G : forall l, ~ Forall finite l -> exists a f b, l = a ++ f :: b /\ Forall finite a /\ ~ finite f).
    { induction l as [|f l IH]; intros N; [elim N; constructor|].
      assert (DF : finite f \/ ~ finite f).
      { unfold finite, is_value. destruct (Prim2SF f); cbn [sf_value]; [left; now eexists|right; now intros []|right; now intros []|left; now eexists]. }
      destruct DF as [DF|DF].
      - destruct IH as [a [g [b [-> [A B]]]]]; [intros M; apply N; now constructor|]. exists (f :: a), g, b. repeat split; auto.
      - exists [], f, l. repeat split; auto. }
    apply G, NF. }
  destruct X as [a [f [b [E [A B]]]]]. rewrite state_text_fields.
  pose proof (state_fields_sep P s) as SEP. unfold state_fields in *. rewrite E in *. rewrite map_app, <- app_assoc in *. cbn [map app] in *.
  set (tl := map (fun x => (f_text P x, " "%char)) b ++ _) in *. set (hd := map (fun x => (f_text P x, " "%char)) a) in *.
  assert (LEN : 8 = length (hd ++ (f_text P f, " "%char) :: tl)).
  { assert (length (numbers s) = 6) by reflexivity. rewrite E in *. unfold hd, tl. rewrite app_length in *. cbn [length] in *.
    rewrite app_length. rewrite !map_length. cbn [length]. lia. }
  rewrite LEN at 1. apply read_fields_fail2; auto.
  - intros tc I r ST. unfold hd in I. apply in_map_iff in I. destruct I as [x [<- I]]. cbn [fst]. unfold f_text.
    rewrite Forall_forall in A. destruct (A x I) as [y Y]. eapply read_or_overflow; eauto.
  - intros r. unfold f_text. apply read_nonfinite. intros x X. apply B. now exists x.
Qed.

(** With any precision, a state with an infinite or undefined number ends the loading:
    the states before it come back rounded, and what stands behind it is dropped. *)
Theorem load_stops_rounded : forall P a s b q,
  Forall (fun s => (forall f, In f (numbers s) -> exists x, is_value f x /\ (Rabs x <= pow2 1023)%R) /\ small_codes s) a ->
  ~ Forall finite (numbers s) ->
  exists a', loadFile (serializePath P (a ++ s :: b)) q = Ok (q ++ a') /\ Forall2 (state_rounded (Nat.max 1 P)) a a'.
Proof.
  intros P a s b q H NF. unfold loadFile. rewrite save_joins. rewrite Forall_forall in H.
  destruct (load_states (state_rounded (Nat.max 1 P)) P a) with (sp := @nil ascii) (rest := serializePath P (s :: b)) (acc := q)
    (fuel := length (serializePath P a ++ serializePath P (s :: b))) as [p' [sp' [E [L F]]]].
  - intros t sp rest I L. destruct (H t I) as [F C].
    destruct (read_state (fun x v => float_rounded (Nat.max 1 P) x (SF2Prim v)) P t sp rest C L) as [vs [d [ty [sp' [E [L' [Q [D T]]]]]]]].
    + intros f If r ST. destruct (F f If) as [x [X B]].
      destruct (read_rounded P (Prim2SF f) x r (Prim2SF_valid f) X B ST) as [v [y [R [V [Y RD]]]]].
      exists v. split; [exact R|]. exists x, y. repeat split; auto. unfold is_value. now rewrite Prim2SF_SF2Prim.
    + unfold numbers in Q.
      repeat match goal with H : Forall2 _ (_ :: _) _ |- _ => inversion H; clear H; subst | H : Forall2 _ [] _ |- _ => inversion H; clear H; subst end.
      eexists _, _, sp'. split; [exact E|]. split; [exact L'|]. split.
      * cbn [app state_of]. rewrite D. cbn [bind]. rewrite T. cbn [bind]. reflexivity.
      * unfold state_rounded, numbers. cbn [ps_point ps_angle ps_vel ps_len ps_dir ps_type px py pz]. split; [|now split]. repeat (constructor; [assumption|]). constructor.
  - now left.
  - rewrite app_length. pose proof (enough_fuel P a). lia.
  - cbn [app] in E. rewrite E. exists p'. split; [|exact F].
    assert (RD : read_doubles 8 (sp' ++ serializePath P (s :: b)) = None).
    { unfold serializePath. cbn [map concat]. apply fail_state2; auto. }
    destruct (length (serializePath P a ++ serializePath P (s :: b)) - length a); cbn [load_loop]; rewrite RD; reflexivity.
Qed.

(** *** Examples *)
(** A state without an angle. *)
Definition undefined_state : fstate := mkPS (N := FNum) (mkPoint (N := FNum) 1 2 0)%float nan 1%float 1%Z 1%Z 1%float.
(** With the default six digits: two states before the undefined one, one behind it. *)
Example load_stops_rounded_ex : (forall f, In f (numbers utm_state) -> exists x, is_value f x /\ (Rabs x <= pow2 1023)%R) /\
  small_codes utm_state /\ ~ Forall finite (numbers undefined_state) /\
  exists a', loadFile (serializePath default_precision ([utm_state; utm_state] ++ undefined_state :: [utm_state])) [] = Ok a' /\ length a' = 2.
Proof.
  assert (C : small_codes utm_state) by (split; cbn; lia).
  split; [exact save_load_rounded_ex|]. split; [exact C|]. split; [exact nan_state|].
  destruct (load_stops_rounded default_precision [utm_state; utm_state] undefined_state [utm_state] []) as [a' [E F]].
  - repeat constructor; auto using save_load_rounded_ex; apply C.
  - exact nan_state.
  - exists a'. split; [exact E|]. inversion F as [|? ? ? ? _ F1]; subst. inversion F1 as [|? ? ? ? _ F2]; subst. now inversion F2.
Qed.

Print Assumptions load_stops_rounded.
