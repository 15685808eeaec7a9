(** Proofs about the text format of paths: lines and files. *)
From Coq Require Import Ascii String ZArith Bool Arith Lia Reals Lra Floats SpecFloat List.
From Verif Require Import Outcome Num Point_Model Path_Model Text_Model Text_Spec Text_Proofs Codec_Model Codec_Spec Codec_Proofs Codec_Proofs2 Codec_Proofs3.
Import ListNotations.
Local Open Scope nat_scope.

(** *** Lines *)
Definition sep (c : ascii) : Prop := c = " "%char \/ c = "010"%char.
Lemma sep_stops c rest : sep c -> stops (c :: rest).
Proof. intros [->| ->] x t E; injection E as <- <-; repeat split. Qed.
Definition lead (sp : text) : Prop := sp = [] \/ exists c, sp = [c] /\ sep c.
Lemma read_lead sp s : lead sp -> read_double (sp ++ s) = read_double s.
Proof. intros [->|[c [-> [->| ->]]]]; reflexivity. Qed.

Definition fields_text (l : list (text * ascii)) : text := concat (map (fun tc => fst tc ++ [snd tc]) l).

Lemma read_fields (Q : text * ascii -> spec_float -> Prop) l : Forall (fun tc => sep (snd tc)) l ->
  (forall tc, In tc l -> forall rest, stops rest -> exists v, read_double (fst tc ++ rest) = Some (v, rest) /\ Q tc v) ->
  forall sp rest, lead sp ->
  exists vs sp', read_doubles (length l) (sp ++ fields_text l ++ rest) = Some (vs, sp' ++ rest) /\ lead sp' /\ Forall2 Q l vs.
Proof.
  induction l as [|[t c] l IH]; intros S G sp rest L.
  - exists [], sp. cbn [length read_doubles]. cbn. repeat split; auto.
  - inversion S as [|? ? S1 S2]; subst. cbn [snd] in S1. cbn [length read_doubles].
    replace (sp ++ fields_text ((t, c) :: l) ++ rest) with (sp ++ t ++ [c] ++ fields_text l ++ rest)
      by (unfold fields_text; cbn [map concat fst snd]; now rewrite <- !app_assoc).
    rewrite (read_lead sp _ L). destruct (G (t, c) (or_introl eq_refl) ([c] ++ fields_text l ++ rest)) as [v [E Qv]]; [now apply sep_stops|].
    cbn [fst] in E. rewrite E. destruct (IH S2 (fun tc I => G tc (or_intror I)) [c] rest) as [vs [sp' [E' [L' F]]]]; [right; now exists c|].
    rewrite E'. exists (v :: vs), sp'. repeat split; auto.
Qed.

Lemma read_fields_fail a t c b sp rest : Forall (fun tc => sep (snd tc)) (a ++ (t, c) :: b) ->
  (forall tc, In tc a -> forall rest, stops rest -> exists v, read_double (fst tc ++ rest) = Some (v, rest)) ->
  (forall rest, read_double (t ++ rest) = None) -> lead sp ->
  read_doubles (length (a ++ (t, c) :: b)) (sp ++ fields_text (a ++ (t, c) :: b) ++ rest) = None.
Proof.
  revert sp. induction a as [|[t' c'] a IH]; intros sp S G F L; cbn [app] in *.
  - replace (sp ++ fields_text ((t, c) :: b) ++ rest) with (sp ++ t ++ [c] ++ fields_text b ++ rest)
      by (unfold fields_text; cbn [map concat fst snd]; now rewrite <- !app_assoc).
    cbn [length read_doubles]. rewrite (read_lead sp _ L), F. reflexivity.
  - inversion S as [|? ? S1 S2]; subst. cbn [snd] in S1. cbn [length read_doubles].
    replace (sp ++ fields_text ((t', c') :: a ++ (t, c) :: b) ++ rest) with (sp ++ t' ++ [c'] ++ fields_text (a ++ (t, c) :: b) ++ rest)
      by (unfold fields_text; cbn [map concat fst snd]; now rewrite <- !app_assoc).
    rewrite (read_lead sp _ L). destruct (G (t', c') (or_introl eq_refl) ([c'] ++ fields_text (a ++ (t, c) :: b) ++ rest)) as [v E]; [now apply sep_stops|].
    cbn [fst] in E. rewrite E. rewrite (IH [c'] S2 (fun tc I => G tc (or_intror I)) F); [reflexivity|]. right; now exists c'.
Qed.

(** *** States *)
Definition state_fields (P : nat) (s : fstate) : list (text * ascii) :=
  map (fun x => (f_text P x, " "%char)) (numbers s) ++
  [(g_text 6 (sf_of_int (ps_dir s)), " "%char); (g_text 6 (sf_of_int (ps_type s)), "010"%char)].
Lemma state_text_fields P s : state_text P s = fields_text (state_fields P s).
Proof. unfold state_text, fields_text, state_fields, numbers. cbn [map concat app fst snd list_ascii_of_string]. now rewrite <- !app_assoc. Qed.
Lemma state_fields_sep P s : Forall (fun tc => sep (snd tc)) (state_fields P s).
Proof. unfold state_fields, numbers. cbn [map app]. repeat constructor; cbn; (now left) || (now right). Qed.

(** A state whose numbers are read with property [Q]. *)
Lemma read_state (Q : float -> spec_float -> Prop) P s sp rest : small_codes s -> lead sp ->
  (forall x, In x (numbers s) -> forall rest, stops rest -> exists v, read_double (f_text P x ++ rest) = Some (v, rest) /\ Q x v) ->
  exists vs d t sp', read_doubles 8 (sp ++ state_text P s ++ rest) = Some (vs ++ [d; t], sp' ++ rest) /\ lead sp' /\
    Forall2 Q (numbers s) vs /\ enum_of_sf d = Ok (ps_dir s) /\ enum_of_sf t = Ok (ps_type s).
Proof.
  intros [C1 C2] L G. rewrite state_text_fields.
  unfold state_fields, numbers in *. set (x1 := px (ps_point s)) in *. set (x2 := py (ps_point s)) in *. set (x3 := pz (ps_point s)) in *.
  set (x4 := ps_angle s) in *. set (x5 := ps_vel s) in *. set (x6 := ps_len s) in *. cbn [map app] in *.
  unfold fields_text. cbn [map concat fst snd]. rewrite <- !app_assoc.
  assert (ST : forall c X, sep c -> stops ([c] ++ X)) by (intros; now apply sep_stops).
  assert (S1 : sep " ") by now left. assert (S2 : sep "010") by now right.
  assert (LD : forall X, read_double ([" "%char] ++ X) = read_double X) by reflexivity.
  cbn [read_doubles]. rewrite (read_lead sp _ L).
  match goal with |- context [read_double (f_text P x1 ++ [" "%char] ++ ?X)] => destruct (G x1 ltac:(cbn; auto) ([" "%char] ++ X) ltac:(auto)) as [v1 [E1 Q1]]; rewrite E1; rewrite LD end.
  match goal with |- context [read_double (f_text P x2 ++ [" "%char] ++ ?X)] => destruct (G x2 ltac:(cbn; auto) ([" "%char] ++ X) ltac:(auto)) as [v2 [E2 Q2]]; rewrite E2; rewrite LD end.
  match goal with |- context [read_double (f_text P x3 ++ [" "%char] ++ ?X)] => destruct (G x3 ltac:(cbn; auto) ([" "%char] ++ X) ltac:(auto)) as [v3 [E3 Q3]]; rewrite E3; rewrite LD end.
  match goal with |- context [read_double (f_text P x4 ++ [" "%char] ++ ?X)] => destruct (G x4 ltac:(cbn; auto) ([" "%char] ++ X) ltac:(auto)) as [v4 [E4 Q4]]; rewrite E4; rewrite LD end.
  match goal with |- context [read_double (f_text P x5 ++ [" "%char] ++ ?X)] => destruct (G x5 ltac:(cbn; auto 10) ([" "%char] ++ X) ltac:(auto)) as [v5 [E5 Q5]]; rewrite E5; rewrite LD end.
  match goal with |- context [read_double (f_text P x6 ++ [" "%char] ++ ?X)] => destruct (G x6 ltac:(cbn; auto 10) ([" "%char] ++ X) ltac:(auto)) as [v6 [E6 Q6]]; rewrite E6; rewrite LD end.
  match goal with |- context [read_double (g_text 6 (sf_of_int (ps_dir s)) ++ [" "%char] ++ ?X)] => destruct (read_int _ ([" "%char] ++ X) C1 ltac:(auto)) as [v7 [E7 Q7]]; rewrite E7; rewrite LD end.
  match goal with |- context [read_double (g_text 6 (sf_of_int (ps_type s)) ++ ["010"%char] ++ ?X)] => destruct (read_int _ (["010"%char] ++ X) C2 ltac:(auto)) as [v8 [E8 Q8]]; rewrite E8 end.
  exists [v1; v2; v3; v4; v5; v6], v7, v8, ["010"%char]. repeat split; auto.
  - right. exists "010"%char. now split.
  - repeat constructor; auto.
Qed.

Lemma state_text_long P s : 8 <= length (state_text P s).
Proof. unfold state_text. rewrite !app_length. cbn. lia. Qed.

(** *** Files *)

(** Loading the states of a file one after the other. *)
Lemma load_states (R : fstate -> fstate -> Prop) P p : 
  (forall s sp rest, In s p -> lead sp -> exists l s' sp', read_doubles 8 (sp ++ state_text P s ++ rest) = Some (l, sp' ++ rest) /\ lead sp' /\
     state_of l = Ok s' /\ R s s') ->
  forall sp rest acc fuel, lead sp -> length p <= fuel ->
  exists p' sp', load_loop fuel (sp ++ serializePath P p ++ rest) acc = load_loop (fuel - length p) (sp' ++ rest) (acc ++ p') /\
    lead sp' /\ Forall2 R p p'.
Proof.
  induction p as [|s p IH]; intros H sp rest acc fuel L F.
  - exists [], sp. cbn [serializePath map concat app length]. rewrite Nat.sub_0_r, app_nil_r. repeat split; auto.
  - cbn [length] in F. destruct fuel as [|fuel]; [lia|]. unfold serializePath. cbn [map concat]. rewrite <- app_assoc.
    destruct (H s sp (concat (map (state_text P) p) ++ rest) (or_introl eq_refl) L) as [l [s' [sp1 [E [L1 [ST Rs]]]]]].
    cbn [load_loop]. rewrite E, ST. cbn [bind].
    destruct (IH (fun s sp rest I => H s sp rest (or_intror I)) sp1 rest (acc ++ [s']) fuel L1 ltac:(lia)) as [p' [sp' [E' [L' F']]]].
    exists (s' :: p'), sp'. unfold serializePath in E'. rewrite E'. cbn [length Nat.sub]. rewrite <- app_assoc. repeat split; auto.
Qed.

Lemma serialize_long P p : length p <= length (serializePath P p).
Proof.
  unfold serializePath. induction p as [|s p IH]; cbn [map concat length]; [lia|]. rewrite app_length. pose proof (state_text_long P s). lia.
Qed.

Lemma read_lead_end sp : lead sp -> read_doubles 8 sp = None.
Proof. intros [->|[c [-> [->| ->]]]]; reflexivity. Qed.
Lemma load_end fuel sp acc : lead sp -> load_loop fuel sp acc = Ok acc.
Proof. intros L. destruct fuel; cbn [load_loop]; now rewrite (read_lead_end sp L). Qed.

(** *** Termination *)
Lemma span_digits_split s : s = fst (span_digits s) ++ snd (span_digits s).
Proof. induction s as [|c s IH]; [reflexivity|]. cbn [span_digits]. destruct (is_digit c); cbn [fst snd app]; congruence. Qed.
Lemma skip_spaces_len s : length (skip_spaces s) <= length s.
Proof. induction s as [|c s IH]; cbn [skip_spaces]; [lia|]. destruct (is_space c); cbn [length]; lia. Qed.
Lemma span_sign_len s : length (snd (span_sign s)) <= length s.
Proof. destruct s as [|c s]; cbn [span_sign]; [cbn; lia|]. destruct (Ascii.eqb c "-"), (Ascii.eqb c "+"); cbn; lia. Qed.
Lemma span_digits_len s : length s = length (fst (span_digits s)) + length (snd (span_digits s)).
Proof. rewrite (span_digits_split s) at 1. apply app_length. Qed.
Lemma span_frac_len s : length (fst (span_frac s)) + length (snd (span_frac s)) <= length s.
Proof.
  destruct s as [|c s]; cbn [span_frac]; [cbn; lia|]. destruct (Ascii.eqb c "."); cbn [length fst snd]; [|lia].
  pose proof (span_digits_len s). lia.
Qed.
Lemma span_exp_len s x t : span_exp s = Some (x, t) -> length t <= length s.
Proof.
  destruct s as [|c s]; cbn [span_exp]; [intros E; injection E as _ <-; lia|]. destruct (Ascii.eqb c "e" || Ascii.eqb c "E").
  - destruct (span_sign s) as [neg s1] eqn:E1. destruct (span_digits s1) as [ds s2] eqn:E2. destruct ds; [discriminate|].
    intros E; injection E as _ <-. pose proof (span_sign_len s) as A. rewrite E1 in A. pose proof (span_digits_len s1) as B. rewrite E2 in B.
    cbn [fst snd length] in *. lia.
  - intros E; injection E as _ <-. cbn [length]. lia.
Qed.
Lemma read_double_len s v t : read_double s = Some (v, t) -> length t < length s.
Proof.
  unfold read_double. pose proof (skip_spaces_len s) as A. pose proof (span_sign_len (skip_spaces s)) as B.
  destruct (span_sign (skip_spaces s)) as [neg s1]. cbn [snd] in B. pose proof (span_digits_len s1) as C.
  destruct (span_digits s1) as [i s2]. cbn [fst snd] in C. pose proof (span_frac_len s2) as D. destruct (span_frac s2) as [f s3]. cbn [fst snd] in D.
  destruct (i ++ f) as [|c l] eqn:IF; [discriminate|]. assert (G : 1 <= length i + length f) by (rewrite <- app_length, IF; cbn; lia).
  destruct (span_exp s3) as [[x s4]|] eqn:SE; [|discriminate]. apply span_exp_len in SE. 
  destruct (_ =? 0)%Z; [intros E; injection E as _ <-; lia|].
  destruct (scale _ _ _ _) as [num den]. destruct (round_sf neg num den); [|discriminate]. intros E; injection E as _ <-. lia.
Qed.
Lemma read_doubles_len n : forall s l t, read_doubles n s = Some (l, t) -> length t + n <= length s /\ length l = n.
Proof.
  induction n as [|n IH]; intros s l t; cbn [read_doubles]; [intros E; injection E as <- <-; cbn; lia|].
  destruct (read_double s) as [[v s1]|] eqn:E1; [|discriminate]. apply read_double_len in E1.
  destruct (read_doubles n s1) as [[l1 s2]|] eqn:E2; [|discriminate]. apply IH in E2. intros E; injection E as <- <-. cbn [length]. lia.
Qed.
Lemma load_total : forall fuel s acc, length s <= fuel -> load_loop fuel s acc <> Hang /\
  (forall e, load_loop fuel s acc <> Throw e) /\ forall r, load_loop fuel s acc = Ok r -> exists t, r = acc ++ t.
Proof.
  induction fuel as [|fuel IH]; intros s acc H; cbn [load_loop]; destruct (read_doubles 8 s) as [[l t]|] eqn:E.
  - apply read_doubles_len in E. lia.
  - repeat split; try discriminate. intros r R; injection R as <-. exists []. now rewrite app_nil_r.
  - apply read_doubles_len in E. destruct E as [E1 E2].
    assert (ST : forall o, state_of l = o -> o = UB \/ exists st, o = Ok st).
    { intros o <-. destruct l as [|a1 [|a2 [|a3 [|a4 [|a5 [|a6 [|a7 [|a8 [|]]]]]]]]]; try discriminate. cbn [state_of].
      assert (EN : forall v, enum_of_sf v = UB \/ exists z, enum_of_sf v = Ok z).
      { intros [s0|s0| |s0 m e0]; cbn [enum_of_sf]; [right; now eexists|now left|now left|]. destruct (sf_frac m e0) as [a b].
        match goal with |- context [if ?c then _ else _] => destruct c end; [right; now eexists|now left]. }
      destruct (EN a7) as [->|[d ->]]; [now left|]. cbn [bind]. destruct (EN a8) as [->|[d' ->]]; [now left|]. right; now eexists. }
    destruct (ST _ eq_refl) as [->|[st ->]]; cbn [bind]; [repeat split; discriminate|].
    destruct (IH t (acc ++ [st]) ltac:(lia)) as [A [B C]]. repeat split; auto.
    intros r R. destruct (C r R) as [u ->]. exists (st :: u). now rewrite <- app_assoc.
  - repeat split; try discriminate. intros r R; injection R as <-. exists []. now rewrite app_nil_r.
Qed.
