(** Theorems about the text format of paths (src/fields2cover/types/Path.cpp:274-344). *)
From Coq Require Import Ascii String ZArith Bool Arith Lia Reals Lra Floats SpecFloat List.
From Verif Require Import Outcome Num Point_Model Path_Model Text_Model Text_Spec Text_Proofs Codec_Model Codec_Spec Codec_Proofs Codec_Proofs2 Codec_Proofs3 Codec_Proofs4.
Import ListNotations.
Local Open Scope nat_scope.

Lemma enough_fuel P p : length p <= length (serializePath P p).
Proof. apply serialize_long. Qed.

Lemma Forall2_eq (A : Type) (a b : list A) : Forall2 eq a b -> a = b.
Proof. induction 1; congruence. Qed.

Lemma state_eta (s : fstate) : s = mkPS (N := FNum) (mkPoint (N := FNum) (px (ps_point s)) (py (ps_point s)) (pz (ps_point s)))
  (ps_angle s) (ps_len s) (ps_dir s) (ps_type s) (ps_vel s).
Proof. destruct s as [[x y z] a l d t v]. reflexivity. Qed.

Lemma exact_state P s sp rest : 17 <= P -> Forall finite (numbers s) -> small_codes s -> lead sp ->
  exists l s' sp', read_doubles 8 (sp ++ state_text P s ++ rest) = Some (l, sp' ++ rest) /\ lead sp' /\ state_of l = Ok s' /\ s = s'.
Proof.
  intros HP F C L.
  destruct (read_state (fun x v => v = Prim2SF x) P s sp rest C L) as [vs [d [t [sp' [E [L' [Q [D T]]]]]]]].
  - intros x I r ST. exists (Prim2SF x). split; [|reflexivity]. unfold f_text. apply read_exact; auto; [apply Prim2SF_valid|].
    rewrite Forall_forall in F. exact (F x I).
  - exists (vs ++ [d; t]), s, sp'. repeat split; auto. rewrite (state_eta s) at 1. unfold numbers in Q.
    repeat match goal with H : Forall2 _ (_ :: _) _ |- _ => inversion H; clear H; subst | H : Forall2 _ [] _ |- _ => inversion H; clear H; subst end.
    cbn [app state_of]. rewrite D. cbn [bind]. rewrite T. cbn [bind]. rewrite !SF2Prim_Prim2SF. reflexivity.
Qed.

(** With 17 digits or more, loading what was saved gives back every state bit by bit,
    in order, behind the states the path had before. *)
Theorem save_load_exact : forall P p q, 17 <= P ->
  Forall (fun s => Forall finite (numbers s) /\ small_codes s) p ->
  loadFile (serializePath P p) q = Ok (q ++ p).
Proof.
  intros P p q HP H. unfold loadFile. rewrite Forall_forall in H.
  destruct (load_states eq P p) with (sp := @nil ascii) (rest := @nil ascii) (acc := q) (fuel := length (serializePath P p)) as [p' [sp' [E [L F]]]].
  - intros s sp rest I L. destruct (H s I) as [F C]. now apply exact_state.
  - now left.
  - apply enough_fuel.
  - cbn [app] in E. rewrite !app_nil_r in E. rewrite E, load_end by exact L. f_equal. f_equal.
    symmetry. now apply Forall2_eq.
Qed.

(** With any precision the numbers come back rounded. *)
Theorem save_load_rounded : forall P p q,
  Forall (fun s => (forall f, In f (numbers s) -> exists x, is_value f x /\ (Rabs x <= pow2 1023)%R) /\ small_codes s) p ->
  exists p', loadFile (serializePath P p) q = Ok (q ++ p') /\ Forall2 (state_rounded (Nat.max 1 P)) p p'.
Proof.
  intros P p q H. unfold loadFile. rewrite Forall_forall in H.
  destruct (load_states (state_rounded (Nat.max 1 P)) P p) with (sp := @nil ascii) (rest := @nil ascii) (acc := q) (fuel := length (serializePath P p)) as [p' [sp' [E [L F]]]].
  - intros s sp rest I L. destruct (H s I) as [F C].
    destruct (read_state (fun x v => float_rounded (Nat.max 1 P) x (SF2Prim v)) P s sp rest C L) as [vs [d [t [sp' [E [L' [Q [D T]]]]]]]].
    + intros f If r ST. destruct (F f If) as [x [X B]].
      destruct (read_rounded P (Prim2SF f) x r (Prim2SF_valid f) X B ST) as [v [y [R [V [Y RD]]]]].
      exists v. split; [exact R|]. exists x, y. repeat split; auto. unfold is_value. now rewrite Prim2SF_SF2Prim.
    + unfold numbers in Q.
      repeat match goal with H : Forall2 _ (_ :: _) _ |- _ => inversion H; clear H; subst | H : Forall2 _ [] _ |- _ => inversion H; clear H; subst end.
      eexists _, _, sp'. split; [exact E|]. split; [exact L'|]. split.
      * cbn [app state_of]. rewrite D. cbn [bind]. rewrite T. cbn [bind]. reflexivity.
      * unfold state_rounded, numbers. cbn [ps_point ps_angle ps_vel ps_len ps_dir ps_type px py pz]. split; [|now split]. repeat (constructor; [assumption|]). constructor.
  - now left.
  - apply enough_fuel.
  - exists p'. cbn [app] in E. rewrite !app_nil_r in E. rewrite E, load_end by exact L. split; [reflexivity|exact F].
Qed.

(** Whatever the file holds, loading ends, throws nothing and only appends. *)
Theorem load_appends : forall s p, loadFile s p <> Hang /\ (forall e, loadFile s p <> Throw e) /\
  forall r, loadFile s p = Ok r -> exists t, r = p ++ t.
Proof. intros s p. apply load_total. lia. Qed.

(** Every line of a saved file ends the number before it: the file of two paths one
    after the other is the file of the joined path. *)
Theorem save_joins : forall P p q, serializePath P (p ++ q) = serializePath P p ++ serializePath P q.
Proof. intros. unfold serializePath. now rewrite map_app, concat_app. Qed.

Lemma fail_state P s sp rest : 17 <= P -> ~ Forall finite (numbers s) -> lead sp ->
  read_doubles 8 (sp ++ state_text P s ++ rest) = None.
Proof.
  intros HP NF L.
  assert (X : exists a f b, numbers s = a ++ f :: b /\ Forall finite a /\ ~ finite f).
  { assert (G : forall l, ~ Forall finite l -> exists a f b, l = a ++ f :: b /\ Forall finite a /\ ~ finite f).
    { induction l as [|f l IH]; intros N; [elim N; constructor|].
      assert (DF : finite f \/ ~ finite f).
      { unfold finite, is_value. destruct (Prim2SF f); cbn [sf_value]; [left; now eexists|right; now intros []|right; now intros []|left; now eexists]. }
      destruct DF as [DF|DF].
      - destruct IH as [a [g [b [-> [A B]]]]]; [intros M; apply N; now constructor|]. exists (f :: a), g, b. repeat split; auto.
      - exists [], f, l. repeat split; auto. }
    apply G, NF. }
  destruct X as [a [f [b [E [A B]]]]]. rewrite state_text_fields.
  pose proof (state_fields_sep P s) as SEP. unfold state_fields in *. rewrite E in *. rewrite map_app, <- app_assoc in *. cbn [map app] in *.
  set (tl := map (fun x => (f_text P x, " "%char)) b ++ _) in *. set (hd := map (fun x => (f_text P x, " "%char)) a) in *.
  assert (LEN : 8 = length (hd ++ (f_text P f, " "%char) :: tl)).
  { assert (length (numbers s) = 6) by reflexivity. rewrite E in *. unfold hd, tl. rewrite app_length in *. cbn [length] in *.
    rewrite app_length. rewrite !map_length. cbn [length]. lia. }
  rewrite LEN at 1. apply read_fields_fail; auto.
  - intros tc I r ST. unfold hd in I. apply in_map_iff in I. destruct I as [x [<- I]]. exists (Prim2SF x). cbn [fst]. unfold f_text.
    apply read_exact; auto; [apply Prim2SF_valid|]. rewrite Forall_forall in A. exact (A x I).
  - intros r. unfold f_text. apply read_nonfinite. intros x X. apply B. now exists x.
Qed.

(** A state with an infinite or undefined number ends the loading: the states before it
    come back, it and everything behind it is silently dropped. *)
Theorem load_stops : forall P a s b q, 17 <= P ->
  Forall (fun s => Forall finite (numbers s) /\ small_codes s) a ->
  ~ Forall finite (numbers s) ->
  loadFile (serializePath P (a ++ s :: b)) q = Ok (q ++ a).
Proof.
  intros P a s b q HP H NF. unfold loadFile. rewrite save_joins. rewrite Forall_forall in H.
  destruct (load_states eq P a) with (sp := @nil ascii) (rest := serializePath P (s :: b)) (acc := q)
    (fuel := length (serializePath P a ++ serializePath P (s :: b))) as [p' [sp' [E [L F]]]].
  - intros t sp rest I L. destruct (H t I) as [F C]. now apply exact_state.
  - now left.
  - rewrite app_length. pose proof (enough_fuel P a). lia.
  - cbn [app] in E. rewrite E. assert (p' = a) as -> by (symmetry; now apply Forall2_eq).
    assert (RD : read_doubles 8 (sp' ++ serializePath P (s :: b)) = None).
    { unfold serializePath. cbn [map concat]. apply fail_state; auto. }
    destruct (length (serializePath P a ++ serializePath P (s :: b)) - length a); cbn [load_loop]; rewrite RD; reflexivity.
Qed.

(** *** Findings *)

Lemma state_of_string P s t : string_of_list_ascii (state_text P s) = t -> state_text P s = list_ascii_of_string t.
Proof. intros <-. now rewrite list_ascii_of_string_of_list_ascii. Qed.
Lemma load_one s x y z a v l d t d' t' rest st q : read_doubles 8 s = Some ([x; y; z; a; v; l; d; t], rest) ->
  enum_of_sf d = Ok d' -> enum_of_sf t = Ok t' -> read_doubles 8 rest = None ->
  mkPS (N := FNum) (mkPoint (N := FNum) (SF2Prim x) (SF2Prim y) (SF2Prim z)) (SF2Prim a) (SF2Prim l) d' t' (SF2Prim v) = st ->
  loadFile s q = Ok (q ++ [st]).
Proof.
  intros E D T R <-. unfold loadFile. destruct (length s) as [|n] eqn:L; cbn [load_loop]; rewrite E.
  - apply read_doubles_len in E. lia.
  - cbn [state_of]. rewrite D. cbn [bind]. rewrite T. cbn [bind]. destruct n; cbn [load_loop]; rewrite R; reflexivity.
Qed.

(** A state at a point given in metres of a UTM zone. *)
Definition utm_state : fstate := mkPS (N := FNum) (mkPoint (N := FNum) 561234.5 5712345 0)%float 0.5%float 1%float 1%Z 1%Z 1%float.
Example utm_state_text : string_of_list_ascii (state_text default_precision utm_state) = "561234 5.71234e+06 0 0.5 1 1 1 1
"%string.
Proof. vm_compute. reflexivity. Qed.

Lemma value_int (f : float) s m e : Prim2SF f = S754_finite s m e -> forall x, is_value f x -> x = ((if s then -1 else 1) * IZR (Zpos m) * pow2 e)%R.
Proof. intros E x. unfold is_value. rewrite E. now intros ->. Qed.

(** With the default precision of saveToFile, a point in UTM coordinates comes back
    metres away: five metres here. *)
Theorem default_precision_refuted : exists s t : fstate,
  Forall finite (numbers s) /\ small_codes s /\
  loadFile (serializePath default_precision [s]) [] = Ok [t] /\
  forall y y', is_value (py (ps_point s)) y -> is_value (py (ps_point t)) y' -> (y - y' = 5)%R.
Proof.
  exists utm_state, (mkPS (N := FNum) (mkPoint (N := FNum) 561234 5712340 0)%float 0.5%float 1%float 1%Z 1%Z 1%float).
  split; [|split; [|split]].
  - unfold numbers. repeat constructor; unfold finite, is_value.
    all: match goal with |- exists x, sf_value ?v x => let w := eval vm_compute in v in change v with w end.
    all: now eexists.
  - split; cbn; lia.
  - unfold serializePath. cbn [map concat].
    rewrite (state_of_string _ _ _ utm_state_text), app_nil_r.
    refine (load_one _ _ _ _ _ _ _ _ _ _ _ _ _ [] _ _ _ _ _).
    + vm_compute. reflexivity.
    + vm_compute. reflexivity.
    + vm_compute. reflexivity.
    + vm_compute. reflexivity.
    + reflexivity.
  - intros y y' H H'. cbn [ps_point py utm_state] in H, H'.
    apply (value_int _ false 6133583739617280 (-30)) in H; [|vm_compute; reflexivity].
    apply (value_int _ false 6133578370908160 (-30)) in H'; [|vm_compute; reflexivity].
    subst. unfold pow2. cbn [powerRZ]. change (Pos.to_nat 30) with 30. cbn [pow]. lra.
Qed.

Lemma nan_state : ~ Forall finite (numbers (mkPS (N := FNum) (mkPoint (N := FNum) 1 2 0)%float nan 1%float 1%Z 1%Z 1%float)).
Proof.
  intros H. rewrite Forall_forall in H. destruct (H nan) as [x X]; [cbn; auto|]. unfold is_value in X.
  match type of X with sf_value ?v x => let w := eval vm_compute in v in change v with w in X end. exact X.
Qed.
Lemma utm_finite : Forall finite (numbers utm_state).
Proof.
  unfold numbers. repeat constructor; unfold finite, is_value.
  all: match goal with |- exists x, sf_value ?v x => let w := eval vm_compute in v in change v with w end.
  all: now eexists.
Qed.

(** One undefined number loses the rest of the file, without any error. *)
Theorem load_nonfinite_refuted : exists p : list fstate, exists P,
  length p = 3 /\ exists a, loadFile (serializePath P p) [] = Ok a /\ length a = 1.
Proof.
  exists [utm_state; mkPS (N := FNum) (mkPoint (N := FNum) 1 2 0)%float nan 1%float 1%Z 1%Z 1%float; utm_state], 17.
  split; [reflexivity|]. exists [utm_state]. split; [|reflexivity].
  apply (load_stops 17 [utm_state] _ [utm_state] []); [lia|constructor; [split; [exact utm_finite|split; cbn; lia]|constructor]|exact nan_state].
Qed.

(** *** Examples *)
Example save_load_ex : Forall finite (numbers utm_state) /\ small_codes utm_state /\
  string_of_list_ascii (serializePath 17 [utm_state; utm_state]) = "561234.5 5712345 0 0.5 1 1 1 1
561234.5 5712345 0 0.5 1 1 1 1
"%string.
Proof. split; [exact utm_finite|]. split; [split; cbn; lia|]. vm_compute. reflexivity. Qed.
Example save_load_rounded_ex : forall f, In f (numbers utm_state) -> exists x, is_value f x /\ (Rabs x <= pow2 1023)%R.
Proof.
  assert (B : (8388608 <= pow2 1023)%R).
  { replace 8388608%R with (pow2 23) by (unfold pow2; cbn [powerRZ]; change (Pos.to_nat 23) with 23; cbn [pow]; lra).
    unfold pow2. rewrite <- !pow_powerRZ with (n := 23). replace 1023%Z with (Z.of_nat 1023) by reflexivity. rewrite <- pow_powerRZ.
    apply Rle_pow; [lra|lia]. }
  assert (V : forall (f : float) m e, Prim2SF f = S754_finite false m e -> (0 <= IZR (Zpos m) * pow2 e <= 8388608)%R ->
    exists x, is_value f x /\ (Rabs x <= pow2 1023)%R).
  { intros f m e E G. exists (IZR (Zpos m) * pow2 e)%R. split; [unfold is_value; rewrite E; cbn [sf_value]; lra|].
    rewrite Rabs_pos_eq by lra. lra. }
  assert (K : forall n, pow2 (Zneg n) = (/ 2 ^ Pos.to_nat n)%R) by reflexivity.
  intros f [<-|[<-|[<-|[<-|[<-|[<-|[]]]]]]]; cbn [utm_state ps_point px py pz ps_angle ps_vel ps_len].
  - eapply V; [vm_compute; reflexivity|]. rewrite K. change (Pos.to_nat 33) with 33. cbn [pow]. lra.
  - eapply V; [vm_compute; reflexivity|]. rewrite K. change (Pos.to_nat 30) with 30. cbn [pow]. lra.
  - exists 0%R. split; [reflexivity|]. rewrite Rabs_R0. lra.
  - eapply V; [vm_compute; reflexivity|]. rewrite K. change (Pos.to_nat 53) with 53. cbn [pow]. lra.
  - eapply V; [vm_compute; reflexivity|]. rewrite K. change (Pos.to_nat 52) with 52. cbn [pow]. lra.
  - eapply V; [vm_compute; reflexivity|]. rewrite K. change (Pos.to_nat 52) with 52. cbn [pow]. lra.
Qed.
Example load_stops_ex : ~ Forall finite (numbers (mkPS (N := FNum) (mkPoint (N := FNum) 1 2 0)%float nan 1%float 1%Z 1%Z 1%float)).
Proof. exact nan_state. Qed.
Example load_appends_ex : loadFile (txt "1 2 0 0 1 1 1 1 broken") [utm_state] =
  Ok [utm_state; mkPS (N := FNum) (mkPoint (N := FNum) 1 2 0)%float 0%float 1%float 1%Z 1%Z 1%float].
Proof.
  refine (load_one _ _ _ _ _ _ _ _ _ _ _ _ _ [utm_state] _ _ _ _ _).
  - vm_compute. reflexivity.
  - vm_compute. reflexivity.
  - vm_compute. reflexivity.
  - vm_compute. reflexivity.
  - reflexivity.
Qed.

Print Assumptions save_load_exact.
Print Assumptions save_load_rounded.
Print Assumptions load_appends.
Print Assumptions save_joins.
Print Assumptions load_stops.
Print Assumptions default_precision_refuted.
Print Assumptions load_nonfinite_refuted.
