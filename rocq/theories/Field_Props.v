(** Theorems about fields and coordinate systems (properties C70-C72, C140-C147). *)
From Coq Require Import Ascii String ZArith Bool Arith Lia Reals Lra List.
From Verif Require Import Outcome Num Point_Model Container_Model Container_Spec Container_Proofs Container_Props
  Text_Model Text_Spec Text_Proofs Field_Model Field_Spec Field_Proofs.
Import ListNotations.
Local Open Scope nat_scope.

Notation rfield := (field RNum).

(** *** EPSG codes (C71, C140, C141) *)

(** std::to_string: a minus sign for negative numbers and the decimal digits. *)
Theorem to_string_decimal : forall n, exists s, decimal s (Z.abs n) /\
  to_string n = (if (n <? 0)%Z then ["-"%char] else []) ++ s.
Proof. intros n. eexists. split; [apply dec_full; lia|reflexivity]. Qed.

Example to_string_ex : to_string (-4326)%Z = txt "-4326" /\ decimal (txt "4326") 4326.
Proof. split; [reflexivity|]. exact (dec_full 4326 ltac:(lia)). Qed.

(** A code that was set is recovered, for every 32-bit number; systems without
    "EPSG:" give -1. *)
Theorem epsg_round_trip : forall (f : rfield) n,
  ((- 2 ^ 31 <= n < 2 ^ 31)%Z -> getEPSGCoordSystem (f_crs (setEPSGCoordSystem f n)) = Ok n /\
     isCoordSystemEPSG (f_crs (setEPSGCoordSystem f n)) = true) /\
  (forall crs, ~ occurs (txt "EPSG:") crs -> isCoordSystemEPSG crs = false /\ getEPSGCoordSystem crs = Ok (-1)%Z).
Proof.
  intros f n. split.
  - intros H. assert (I : isCoordSystemEPSG (f_crs (setEPSGCoordSystem f n)) = true).
    { unfold isCoordSystemEPSG. apply find_is. exists [], (to_string n). reflexivity. }
    split; auto. unfold getEPSGCoordSystem. rewrite I. unfold substr, setEPSGCoordSystem, field_setCRS; cbn [f_crs].
    rewrite app_length, (proj2 (Nat.ltb_ge _ _)) by (cbn; lia). cbn [bind].
    change (skipn 5 (txt "EPSG:" ++ to_string n)) with (to_string n).
    destruct (to_string_decimal n) as [s [D ->]].
    pose proof (stoi_ok [] (if (n <? 0)%Z then ["-"%char] else []) s (Z.abs n) []) as K. rewrite app_nil_r in K. cbn [app] in K.
    rewrite K; [|intros c []|exact D|discriminate|destruct (n <? 0)%Z; auto].
    destruct (Z.ltb_spec n 0) as [L|L]; cbn [Ascii.eqb Bool.eqb].
    + replace (- Z.abs n)%Z with n by lia. rewrite (proj2 (Z.leb_le _ _)) by lia. rewrite (proj2 (Z.ltb_lt _ _)) by lia. reflexivity.
    + replace (Z.abs n) with n by lia. rewrite (proj2 (Z.leb_le _ _)) by lia. rewrite (proj2 (Z.ltb_lt _ _)) by lia. reflexivity.
  - intros crs H. assert (I : isCoordSystemEPSG crs = false).
    { unfold isCoordSystemEPSG. rewrite <- find_none in H. now rewrite H. }
    split; auto. unfold getEPSGCoordSystem. now rewrite I.
Qed.

Example epsg_round_trip_ex : getEPSGCoordSystem (f_crs (setEPSGCoordSystem (field_default RNum) 28992)) = Ok 28992%Z /\
  getEPSGCoordSystem (txt "UTM:31N") = Ok (-1)%Z.
Proof. split; reflexivity. Qed.

(** What is read after "EPSG:" at the start of the text: white space, a sign and a
    number; anything may follow.  Numbers that are not 32-bit throw out_of_range. *)
Theorem epsg_reads : forall w sg s n v,
  (forall c, In c w -> In c (map ascii_of_nat [9; 10; 11; 12; 13; 32])) -> decimal s n -> ends a_digit v ->
  (sg = [] \/ sg = txt "+" \/ sg = txt "-") ->
  let k := (if list_eq_dec Ascii.ascii_dec sg (txt "-") then - n else n)%Z in
  ((- 2 ^ 31 <= k < 2 ^ 31)%Z -> getEPSGCoordSystem (txt "EPSG:" ++ w ++ sg ++ s ++ v) = Ok k) /\
  (~ (- 2 ^ 31 <= k < 2 ^ 31)%Z -> getEPSGCoordSystem (txt "EPSG:" ++ w ++ sg ++ s ++ v) = Throw OutOfRange).
Proof.
  intros w sg s n v W D V SG k. unfold getEPSGCoordSystem.
  assert (I : isCoordSystemEPSG (txt "EPSG:" ++ w ++ sg ++ s ++ v) = true).
  { unfold isCoordSystemEPSG. apply find_is. exists [], (w ++ sg ++ s ++ v). reflexivity. }
  rewrite I. unfold substr. rewrite app_length, (proj2 (Nat.ltb_ge _ _)) by (cbn; lia). cbn [bind].
  change (skipn 5 (txt "EPSG:" ++ w ++ sg ++ s ++ v)) with (w ++ sg ++ s ++ v).
  rewrite (stoi_ok w sg s n v); auto.
  - replace (match sg with [c] => if Ascii.eqb c "-" then (- n)%Z else n | _ => n end) with k.
    + cbn zeta. split; intros K.
      * rewrite (proj2 (Z.leb_le _ _)), (proj2 (Z.ltb_lt _ _)) by lia. reflexivity.
      * destruct (Z.leb_spec (- 2 ^ 31) k), (Z.ltb_spec k (2 ^ 31)); auto. exfalso. apply K; lia.
    + unfold k. destruct SG as [->|[->| ->]]; reflexivity.
  - intros c C. apply W in C. cbn in C. repeat destruct C as [<-|C]; try reflexivity. destruct C.
  - intros c t E. destruct (is_digit c) eqn:X; auto. exfalso. apply digit_class in X. eapply V; eauto.
Qed.

Example epsg_reads_ex : getEPSGCoordSystem (txt "EPSG: 4326 (GPS)") = Ok 4326%Z /\ getEPSGCoordSystem (txt "EPSG:99999999999") = Throw OutOfRange.
Proof. split; reflexivity. Qed.

(** Systems that name the code elsewhere are recognised as EPSG systems, but the code
    is taken from the sixth character on: it throws, or gives a wrong number. *)
Theorem epsg_anywhere_refuted :
  (exists crs pre, crs = pre ++ txt "EPSG:4326" /\ isCoordSystemEPSG crs = true /\ getEPSGCoordSystem crs = Throw InvalidArgument) /\
  (exists crs pre, crs = pre ++ txt "EPSG:4326" /\ isCoordSystemEPSG crs = true /\ getEPSGCoordSystem crs = Ok 28%Z).
Proof.
  split; [exists (txt "crs=EPSG:4326"), (txt "crs=")|exists (txt "ver. 28 EPSG:4326"), (txt "ver. 28 ")]; repeat split; reflexivity.
Qed.

(** *** UTM codes (C72, C142-C145) *)

(** What is found: the first place with "UTM", signs, and a code; the given text when
    there is none.  The same for the datum. *)
Theorem utm_code : forall s dflt,
  ((exists z, first_at utm_at s z /\ getUTMCoordSystem s dflt = z) \/ (nowhere utm_at s /\ getUTMCoordSystem s dflt = dflt)) /\
  ((exists z, first_at datum_at s z /\ getUTMDatum s dflt = z) \/ (nowhere datum_at s /\ getUTMDatum s dflt = dflt)) /\
  (isCoordSystemUTM s = true <-> occurs (txt "UTM:") s).
Proof. intros s dflt. split; [apply getUTM_cases|]. split; [apply getDatum_cases|]. apply find_is. Qed.

Example utm_code_ex : getUTMCoordSystem (txt "xUTM? UTM: 31N_ datum: WGS84;") [] = txt "31N" /\
  getUTMCoordSystem (txt "UTM:31") [] = txt "31" /\ getUTMCoordSystem (txt "UTM:5") (txt "none") = txt "none" /\
  getUTMDatum (txt "UTM:31N datum: WGS84;") datum_default = txt "WGS84".
Proof. repeat split; reflexivity. Qed.

Lemma digit_no_mark c : a_digit c -> ~ a_mark c.
Proof.
  intros D M. apply digit_class in D. destruct M as [M| ->]; [|discriminate]. apply letter_class in M.
  destruct c as [[] [] [] [] [] [] [] []]; discriminate.
Qed.

Lemma nowhere_short a b c : a_digit a -> nowhere utm_at [a; b; c].
Proof.
  intros A pre t z E [sep [d [rest [Et [_ [D _]]]]]]. subst t. apply (f_equal (@length ascii)) in E. rewrite !app_length in E. cbn [length] in E.
  change (length (list_ascii_of_string "UTM")) with 3 in E. destruct d; [congruence|]. cbn [length] in E. lia.
Qed.

(** A zone of two digits and a hemisphere, set with any datum, are recovered. *)
Theorem utm_zone : forall (f : rfield) a b h datum, a_digit a -> a_digit b ->
  let crs := f_crs (setUTMCoordSystem2 f [a; b; h] datum) in
  (h = "n"%char \/ h = "N"%char -> getUTMZone crs = Ok [a; b] /\ getUTMHemisphere crs = Ok (txt "+north")) /\
  (h = "s"%char \/ h = "S"%char -> getUTMZone crs = Ok [a; b] /\ getUTMHemisphere crs = Ok (txt "+south")) /\
  isCoordSystemUTM crs = true.
Proof.
  intros f a b h datum A B crs.
  assert (C : crs = txt "UTM:" ++ [a; b; h] ++ txt " datum:" ++ getUTMDatum datum datum).
  { unfold crs, setUTMCoordSystem2, field_setCRS; cbn [f_crs].
    destruct (getUTM_cases [a; b; h] [a; b; h]) as [[z [[u [t [E [Z _]]]] _]]|[_ ->]]; [|reflexivity].
    exfalso. eapply (nowhere_short a b h A); eauto. }
  assert (G : a_mark h -> getUTMCoordSystem crs utm_default = [a; b; h]).
  { intros M. apply getUTM_first. rewrite C. apply utm_prefixed.
    - exists [a; b]. split; [discriminate|]. split; [intros c [<-|[<-|[]]]; auto|]. right. exists h. auto.
    - intros c t E. cbn [app] in E. injection E as <- _. split; intros K; [apply digit_class in K; discriminate|].
      destruct K as [K|K]; [apply letter_class in K|]; discriminate. }
  assert (L : forall c, c = "n"%char \/ c = "N"%char \/ c = "s"%char \/ c = "S"%char -> a_mark c).
  { intros c K. left. apply letter_class. destruct K as [->|[->|[->| ->]]]; reflexivity. }
  unfold getUTMZone, getUTMHemisphere. split; [|split].
  - intros H. rewrite G by (apply L; tauto). destruct H as [->| ->]; split; reflexivity.
  - intros H. rewrite G by (apply L; tauto). destruct H as [->| ->]; split; reflexivity.
  - unfold isCoordSystemUTM. apply find_is. rewrite C. exists []. eexists. reflexivity.
Qed.

Example utm_zone_ex : getUTMHemisphere (f_crs (setUTMCoordSystem2 (field_default RNum) (txt "31S") (txt "WGS84"))) = Ok (txt "+south").
Proof. reflexivity. Qed.

(** C72 as stated is false: zones 1 to 9 written without a leading zero keep the
    hemisphere letter in the zone and lose the hemisphere flag. *)
Theorem utm_zone_small : forall (f : rfield) z h, (1 <= z <= 9)%Z -> h = "N"%char \/ h = "S"%char ->
  let crs := f_crs (setUTMCoordSystem2 f (to_string z ++ [h]) (txt "WGS84")) in
  getUTMZone crs = Ok (to_string z ++ [h]) /\ getUTMHemisphere crs = Ok [].
Proof.
  intros f z h Z H crs. unfold crs. clear crs.
  assert (C : (z = 1 \/ z = 2 \/ z = 3 \/ z = 4 \/ z = 5 \/ z = 6 \/ z = 7 \/ z = 8 \/ z = 9)%Z) by lia.
  destruct C as [->|[->|[->|[->|[->|[->|[->|[->| ->]]]]]]]]; destruct H as [->| ->]; split; reflexivity.
Qed.
Example utm_zone_small_ex : getUTMZone (f_crs (setUTMCoordSystem2 (field_default RNum) (txt "5S") (txt "WGS84"))) = Ok (txt "5S").
Proof. exact (proj1 (utm_zone_small (field_default RNum) 5 "S"%char ltac:(lia) (or_intror eq_refl))). Qed.

(** So the zone and hemisphere that were set are not always found again. *)
Theorem utm_zone_refuted : exists (f : rfield) z h, (1 <= z <= 60)%Z /\ (h = "N"%char \/ h = "S"%char) /\
  let crs := f_crs (setUTMCoordSystem2 f (to_string z ++ [h]) (txt "WGS84")) in
  getUTMZone crs <> Ok (to_string z) /\
  getUTMHemisphere crs <> Ok (if Ascii.eqb h "N" then txt "+north" else txt "+south").
Proof.
  exists (field_default RNum), 5%Z, "S"%char. split; [lia|]. split; [auto|]. split; discriminate.
Qed.

(** The zone and hemisphere of a system are defined exactly when it has a code; the
    zone is the first two characters of the code. *)
Theorem utm_defined : forall crs,
  (forall z, first_at utm_at crs z -> exists a b s, z = a :: b :: s /\ getUTMZone crs = Ok [a; b] /\
     exists h, getUTMHemisphere crs = Ok h /\
       h = match s with
           | "n"%char :: _ | "N"%char :: _ => txt "+north" | "s"%char :: _ | "S"%char :: _ => txt "+south"
           | _ => []
           end) /\
  (nowhere utm_at crs -> getUTMZone crs = Ok [] /\ getUTMHemisphere crs = Throw OutOfRange).
Proof.
  intros crs. split.
  - intros z Z. pose proof (getUTM_first crs utm_default z Z) as G. destruct Z as [p [t [_ [Z _]]]]. apply utm_shape in Z.
    assert (E : exists a b s, z = a :: b :: s).
    { destruct Z as [d [D [_ [[L ->]|[c [_ ->]]]]]].
      - destruct d as [|a [|b d]]; cbn in L; [lia|lia|]. now exists a, b, d.
      - destruct d as [|a [|b d]]; [congruence| |]; [now exists a, c, []|]. now exists a, b, (d ++ [c]). }
    destruct E as [a [b [s ->]]]. exists a, b, s. split; [reflexivity|]. unfold getUTMZone, getUTMHemisphere. rewrite G. split; [reflexivity|].
    eexists. split; [unfold substr; cbn [length Nat.ltb Nat.leb skipn bind]; reflexivity|].
    destruct s as [|c s]; [reflexivity|]. cbn [firstn]. destruct c as [[] [] [] [] [] [] [] []]; try reflexivity; destruct s; reflexivity.
  - intros Nw. destruct (getUTM_cases crs utm_default) as [[z [[a [t [E [Z _]]]] _]]|[_ G]]; [exfalso; eapply Nw; eauto|].
    unfold getUTMZone, getUTMHemisphere. rewrite G. split; reflexivity.
Qed.

Lemma no_code : nowhere utm_at (txt "UTM:x").
Proof. apply (proj2 (search_first utm_regex utm_at utm_match (txt "UTM:x"))). reflexivity. Qed.

(** A system that starts like a UTM one but has no code is reported by out_of_range
    from the substring function. *)
Theorem utm_unrecognised_refuted : exists crs, isCoordSystemUTM crs = true /\ getUTMHemisphere crs = Throw OutOfRange.
Proof. exists (txt "UTM:x"). split; [reflexivity|]. apply utm_defined. exact no_code. Qed.

(** After "UTM:", a code and " datum:" comes the first datum. *)
Lemma datum_after z d : (exists e, e <> [] /\ all a_digit e /\ ((2 <= length e /\ z = e) \/ exists c, a_mark c /\ z = e ++ [c])) ->
  d <> [] -> all (fun c => a_digit c \/ a_letter c) d -> first_at datum_at (txt "UTM:" ++ z ++ txt " datum:" ++ d) d.
Proof.
  intros [e [E [AE H]]] D AD. exists (txt "UTM:" ++ z ++ txt " "), (txt "datum:" ++ d). split; [|split].
  - rewrite <- !app_assoc. reflexivity.
  - exists [":"%char], []. rewrite app_nil_r. repeat split; auto.
    + intros K. destruct H0 as [<-|[]]. apply digit_class in K; discriminate.
    + intros K. destruct H0 as [<-|[]]. apply letter_class in K; discriminate.
    + intros c t K. discriminate.
  - intros a' t' z' K L [sep [rest [T _]]]. subst t'.
    set (s := txt "UTM:" ++ z ++ txt " datum:" ++ d) in *.
    assert (N0 : nth_error s (length a') = Some "d"%char) by (rewrite K, nth_error_app2, Nat.sub_diag by lia; reflexivity).
    assert (N1 : nth_error s (S (length a')) = Some "a"%char).
    { rewrite K, nth_error_app2 by lia. replace (S (length a') - length a') with 1 by lia. reflexivity. }
    rewrite !app_length in L. change (length (txt "UTM:")) with 4 in L. change (length (txt " ")) with 1 in L.
    assert (AT : forall i, nth_error s (4 + i) = nth_error (z ++ txt " datum:" ++ d) i) by reflexivity.
    destruct (Nat.lt_ge_cases (length a') 4) as [L4|L4].
    + destruct (length a') as [|[|[|[|n]]]]; try lia; discriminate.
    + remember (length a' - 4) as i eqn:I. replace (length a') with (4 + i) in * by lia.
      change (S (4 + i)) with (4 + S i) in N1. rewrite AT in N0, N1.
      assert (Ed : forall j, nth_error e j = Some "d"%char -> False).
      { intros j J. apply nth_error_In in J. apply AE, digit_class in J. discriminate. }
      destruct H as [[_ ->]|[c [M ->]]].
      * destruct (Nat.lt_ge_cases i (length e)) as [Li|Li].
        -- rewrite nth_error_app1 in N0 by exact Li. eapply Ed; eauto.
        -- rewrite nth_error_app2 in N0 by exact Li. replace (i - length e) with 0 in N0 by lia. discriminate.
      * rewrite <- app_assoc in N0, N1. rewrite app_length in L. cbn [length] in L.
        destruct (Nat.lt_ge_cases i (length e)) as [Li|Li].
        -- rewrite nth_error_app1 in N0 by exact Li. eapply Ed; eauto.
        -- rewrite nth_error_app2 in N0 by exact Li. rewrite nth_error_app2 in N1 by lia.
           destruct (Nat.eq_dec i (length e)) as [->|Ne].
           ++ replace (S (length e) - length e) with 1 in N1 by lia. discriminate.
           ++ replace (i - length e) with 1 in N0 by lia. discriminate.
Qed.

(** A UTM system set from a text with a code: code and datum are recovered, and
    setting the system again from its own text changes nothing. *)
Theorem utm_set_get : forall (f : rfield) utm z, first_at utm_at utm z ->
  let f' := setUTMCoordSystem f utm in
  exists d, ((first_at datum_at utm d) \/ (nowhere datum_at utm /\ d = txt "etrs89")) /\
    f_crs f' = txt "UTM:" ++ z ++ txt " datum:" ++ d /\ isCoordSystemUTM (f_crs f') = true /\
    (forall dflt, getUTMCoordSystem (f_crs f') dflt = z) /\ (forall dflt, getUTMDatum (f_crs f') dflt = d) /\
    setUTMCoordSystem f' (f_crs f') = f'.
Proof.
  intros f utm z Z f'.
  assert (Dx : exists d, (first_at datum_at utm d \/ (nowhere datum_at utm /\ d = txt "etrs89")) /\ getUTMDatum utm datum_default = d /\
    d <> [] /\ all (fun c => a_digit c \/ a_letter c) d).
  { destruct (getDatum_cases utm datum_default) as [[d [F G]]|[Nw G]].
    - exists d. split; auto. split; auto. destruct F as [a [t [_ [[sep [rest [_ [_ [N [A _]]]]]] _]]]]. auto.
    - exists (txt "etrs89"). split; auto. split; auto. split; [discriminate|].
      intros c C. apply alnum_class. cbn in C. repeat destruct C as [<-|C]; try reflexivity. destruct C. }
  destruct Dx as [d [Hd [Gd [Nd Ad]]]]. exists d. split; [exact Hd|].
  assert (C : f_crs f' = txt "UTM:" ++ z ++ txt " datum:" ++ d).
  { unfold f', setUTMCoordSystem, field_setCRS; cbn [f_crs]. now rewrite (getUTM_first utm utm z Z), Gd. }
  destruct Z as [p [t [_ [Z _]]]]. apply utm_shape in Z.
  assert (Z1 : forall dflt, getUTMCoordSystem (f_crs f') dflt = z).
  { intros dflt. apply getUTM_first. rewrite C. apply utm_prefixed; auto.
    intros c s E. injection E as <- _. split; intros K; [apply digit_class in K; discriminate|].
    destruct K as [K|K]; [apply letter_class in K|]; discriminate. }
  assert (D1 : forall dflt, getUTMDatum (f_crs f') dflt = d).
  { intros dflt. apply getDatum_first. rewrite C. now apply datum_after. }
  split; [exact C|]. split; [unfold isCoordSystemUTM; apply find_is; rewrite C; exists []; eexists; reflexivity|].
  split; [exact Z1|]. split; [exact D1|].
  unfold setUTMCoordSystem at 1. rewrite Z1, D1. rewrite <- C. reflexivity.
Qed.

Example utm_set_get_ex : f_crs (setUTMCoordSystem (field_default RNum) (txt "zone UTM 31N, datum=WGS84.")) = txt "UTM:31N datum:WGS84".
Proof. reflexivity. Qed.

(** *** Positions (C70, C146, C147) *)

Lemma within_sub e (wkt : pt -> pt) (r p : pt) : (forall q, within e (wkt q) q) ->
  within (e + e) (wkt (p_add RNum (wkt (p_sub RNum p r)) r)) p.
Proof.
  intros H. pose proof (H (p_sub RNum p r)) as [A1 [A2 A3]]. set (q := wkt (p_sub RNum p r)) in *.
  pose proof (H (p_add RNum q r)) as [B1 [B2 B3]]. set (s := wkt (p_add RNum q r)) in *.
  unfold p_sub in A1, A2, A3; cbn [px py pz] in A1, A2, A3. unfold p_add in B1, B2, B3; cbn [px py pz] in B1, B2, B3.
  assert (Q : forall a b c x : R, (Rabs (a - (b - c)) <= e)%R -> (Rabs (x - (a + c)) <= e)%R -> (Rabs (x - b) <= e + e)%R).
  { intros a b c x X Y. replace (x - b)%R with ((x - (a + c)) + (a - (b - c)))%R by ring.
    eapply Rle_trans; [apply Rabs_triang|]. lra. }
  repeat split; eapply Q; eauto.
Qed.

(** A field has the first border point of its cells as reference point, the cells
    relative to it, and returns absolute positions differing by at most twice the
    error of the text round trip: exactly the original ones when there is none. *)
Theorem field_positions : forall (wkt : pt -> pt) e (c : cells RNum) id, well_formed c ->
  (forall p, within e (wkt p) p) ->
  exists f, field_make RNum wkt c id = Ok f /\ f_id f = id /\ f_crs f = [] /\ f_prev f = [] /\
    (forall p r rs c', c = ((p :: r) :: rs) :: c' -> f_ref f = p) /\ (c = [] -> f_ref f = p_default RNum) /\
    well_formed (f_cells f) /\ cells_within e (f_cells f) (map (map (map (fun p => p_sub RNum p (f_ref f)))) c) /\
    cells_within (e + e) (getCellsAbsPosition RNum wkt f) c.
Proof.
  intros wkt e c id W H. eexists. split; [apply field_make_ok; exact W|]. cbn [f_id f_crs f_prev f_ref f_cells].
  repeat (split; [reflexivity|]). split; [intros p r rs c' ->; reflexivity|]. split; [intros ->; reflexivity|].
  split; [now apply well_formed_map|]. split; [apply within_map; intros; apply H|].
  rewrite abs_ok by (now apply well_formed_map). cbn [f_cells f_ref]. rewrite map3_map.
  rewrite <- (map3_id c) at 2. apply within_map. intros p. now apply within_sub.
Qed.

Lemma within0 p q : within 0 p q -> p = q.
Proof.
  destruct p as [x y z], q as [x' y' z']. intros [A [B C]]; cbn [px py pz] in *.
  assert (Q : forall a b : R, (Rabs (a - b) <= 0)%R -> a = b).
  { intros a b K. destruct (Req_dec (a - b) 0) as [E|E]; [lra|]. apply Rabs_pos_lt in E. lra. }
  now rewrite (Q _ _ A), (Q _ _ B), (Q _ _ C).
Qed.
Lemma cells_within0 a b : cells_within 0 a b -> a = b.
Proof.
  unfold cells_within. intros H. induction H as [|x y a b H _ IH]; [reflexivity|]. f_equal; auto. clear IH.
  induction H as [|r s x y H _ IH]; [reflexivity|]. f_equal; auto. clear IH.
  induction H as [|p q r s H _ IH]; [reflexivity|]. f_equal; auto. now apply within0.
Qed.

(** Cloning keeps name, coordinate system and absolute positions. *)
Theorem field_clone_keeps : forall (wkt : pt -> pt) e (f : rfield), well_formed (f_cells f) ->
  (forall p, within e (wkt p) p) ->
  exists g, field_clone RNum wkt f = Ok g /\ f_id g = f_id f /\ f_crs g = f_crs f /\
    cells_within (e + e) (getCellsAbsPosition RNum wkt g) (getCellsAbsPosition RNum wkt f).
Proof.
  intros wkt e f W H.
  assert (W' : well_formed (cells_add RNum wkt (f_cells f) (f_ref f))).
  { unfold cells_add. rewrite wf_image by exact W. now apply well_formed_map. }
  destruct (field_positions wkt e _ (f_id f) W' H) as [g [G [I [_ [_ [_ [_ [_ [_ A]]]]]]]]].
  exists (field_setCRS g (f_crs f)). unfold field_clone. rewrite G. split; [reflexivity|].
  split; [exact I|]. split; [reflexivity|]. exact A.
Qed.

Local Open Scope R_scope.
Definition one_cell : cells RNum :=
  [[[mkPoint (N := RNum) 1 1 0; mkPoint (N := RNum) 2 1 0; mkPoint (N := RNum) 2 2 0; mkPoint (N := RNum) 1 1 0]]].
Lemma one_cell_wf : well_formed one_cell.
Proof.
  intros x [<-|[]]. split; [now do 3 eexists|]. intros r [<-|[]]. right.
  exists (mkPoint (N := RNum) 1 1 0), [mkPoint (N := RNum) 2 1 0; mkPoint (N := RNum) 2 2 0]. now left.
Qed.
Lemma within_id : forall p : pt, within 0 p p.
Proof. intros p. assert (Q : forall x : R, (Rabs (x - x) <= 0)%R) by (intros; rewrite Rminus_diag_eq, Rabs_R0 by reflexivity; lra). repeat split; apply Q. Qed.

Example field_positions_ex : exists f, field_make RNum (fun p => p) one_cell (txt "A") = Ok f /\
  getCellsAbsPosition RNum (fun p => p) f = one_cell /\ f_ref f = mkPoint (N := RNum) 1 1 0.
Proof.
  destruct (field_positions (fun p => p) 0 one_cell (txt "A") one_cell_wf within_id) as [f [F [_ [_ [_ [R [_ [_ [_ A]]]]]]]]].
  exists f. split; auto. split; [apply cells_within0; now replace 0%R with (0 + 0)%R by ring|]. eapply R; reflexivity.
Qed.

(** C70 as stated is false: the clone has no previous coordinate system; without
    cells it loses its reference point too, and a reference point that was set to
    another place is replaced. *)
Theorem field_clone_refuted :
  (exists f g : rfield, f_cells f = one_cell /\ field_clone RNum (fun p => p) f = Ok g /\ f_prev g <> f_prev f) /\
  (exists f g : rfield, field_clone RNum (fun p => p) f = Ok g /\ f_cells f = [] /\ f_ref g <> f_ref f) /\
  (exists f g : rfield, f_cells f = one_cell /\ field_clone RNum (fun p => p) f = Ok g /\ f_ref g <> f_ref f).
Proof.
  split; [|split].
  - exists (mkField [] [] (txt "EPSG:4326") (mkPoint (N := RNum) 0 0 0) one_cell). eexists. split; [reflexivity|]. split.
    + unfold field_clone. cbn [f_cells f_ref f_id f_crs]. unfold cells_add. rewrite wf_image by exact one_cell_wf.
      rewrite field_make_ok by (apply well_formed_map; exact one_cell_wf). reflexivity.
    + discriminate.
  - exists (mkField [] [] [] (mkPoint (N := RNum) 7 0 0) []). eexists. split; [reflexivity|]. split; [reflexivity|].
    cbn. intros K. injection K as K. lra.
  - exists (mkField [] [] [] (mkPoint (N := RNum) 7 0 0) one_cell). eexists. split; [reflexivity|]. split.
    + unfold field_clone. cbn [f_cells f_ref f_id f_crs]. unfold cells_add. rewrite wf_image by exact one_cell_wf.
      rewrite field_make_ok by (apply well_formed_map; exact one_cell_wf). reflexivity.
    + cbn [f_ref field_setCRS first_point map one_cell]. unfold p_add; cbn [px py pz]. intros K.
      injection K as K _ _. change (1 + 7 = 7)%R in K. lra.
Qed.

(** A field built from cells whose first polygon has no points is undefined or
    throws out_of_range. *)
Theorem field_first_empty_refuted : exists c d : cells RNum,
  cells_isEmpty RNum c = false /\ field_make RNum (fun p => p) c [] = UB /\
  cells_isEmpty RNum d = false /\ field_make RNum (fun p => p) d [] = Throw OutOfRange.
Proof. exists ([] :: one_cell), ([[]] :: one_cell). repeat split; reflexivity. Qed.

Print Assumptions to_string_decimal.
Print Assumptions epsg_round_trip.
Print Assumptions epsg_reads.
Print Assumptions epsg_anywhere_refuted.
Print Assumptions utm_code.
Print Assumptions utm_zone.
Print Assumptions utm_zone_small.
Print Assumptions utm_zone_refuted.
Print Assumptions utm_defined.
Print Assumptions utm_unrecognised_refuted.
Print Assumptions utm_set_get.
Print Assumptions field_positions.
Print Assumptions field_clone_keeps.
Print Assumptions field_clone_refuted.
Print Assumptions field_first_empty_refuted.

(** The border of a cell is its first ring; asking for the border of a cell that is not there,
    or that has no ring, is undefined behaviour rather than an exception. *)
Theorem field_border_read : forall (N : Num) (cs : cells N) i,
  (forall r, cells_getCellBorder N cs i = Ok r <-> exists holes, nth_error cs i = Some (r :: holes)) /\
  ((forall r, cells_getCellBorder N cs i <> Ok r) -> cells_getCellBorder N cs i = UB).
Proof.
  intros N cs i. unfold cells_getCellBorder, vec_index. destruct (nth_error cs i) as [[|b holes]|]; cbn [bind nth_error]; split; try reflexivity.
  - intro r. split; [discriminate|intros [h E]; discriminate].
  - intro r. split; [intro E; injection E as <-; eauto|intros [h E]; injection E as <- _; reflexivity].
  - intro H. exfalso. now apply (H b).
  - intro r. split; [discriminate|intros [h E]; discriminate].
Qed.
Print Assumptions field_border_read.

Example field_border_read_ex : exists p : point RNum, cells_getCellBorder RNum [[[p]]] 0 = Ok [p] /\ cells_getCellBorder RNum [[[p]]] 1 = UB /\ cells_getCellBorder RNum [[]] 0 = UB.
Proof. exists (mkPoint (N := RNum) 1%R 2%R 3%R). split; [|split]; reflexivity. Qed.
