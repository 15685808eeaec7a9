(** Proofs about texts. *)
From Coq Require Import Ascii String ZArith Bool Arith Lia List.
From Verif Require Import Outcome Text_Model Text_Spec.
Import ListNotations.
Local Open Scope nat_scope.

(** *** Characters *)
Lemma in_existsb (c : ascii) l : In c l <-> existsb (Ascii.eqb c) l = true.
Proof.
  rewrite existsb_exists. split; [intros H; exists c; split; auto; apply Ascii.eqb_refl|].
  intros [d [H E]]. apply Ascii.eqb_eq in E. now subst.
Qed.

Lemma digit_class (c : ascii) : is_digit c = true <-> a_digit c.
Proof.
  unfold a_digit. rewrite in_existsb. replace (existsb (Ascii.eqb c) digits) with (is_digit c); [reflexivity|].
  destruct c as [[] [] [] [] [] [] [] []]; reflexivity.
Qed.
Lemma letter_class (c : ascii) : is_alpha c = true <-> a_letter c.
Proof.
  unfold a_letter. rewrite in_existsb. replace (existsb (Ascii.eqb c) letters) with (is_alpha c); [reflexivity|].
  destruct c as [[] [] [] [] [] [] [] []]; reflexivity.
Qed.
Lemma sign_class (c : ascii) : is_alnum c = false <-> a_sign c.
Proof.
  unfold a_sign, is_alnum. rewrite <- digit_class, <- letter_class. destruct (is_digit c), (is_alpha c); cbn; intuition congruence.
Qed.
Lemma alnum_class (c : ascii) : is_alnum c = true <-> a_digit c \/ a_letter c.
Proof. unfold is_alnum. rewrite <- digit_class, <- letter_class. apply orb_true_iff. Qed.

(** *** Searching *)
Lemma starts_iff pat : forall s, starts pat s = true <-> exists b, s = pat ++ b.
Proof.
  induction pat as [|a pat IH]; intros s; cbn [starts].
  - split; [intros _; now exists s|auto].
  - destruct s as [|b s].
    + split; [discriminate|]. intros [b H]; discriminate.
    + rewrite andb_true_iff, Ascii.eqb_eq, IH. split.
      * intros [-> [t ->]]. now exists t.
      * intros [t E]. injection E as -> ->. split; auto. now exists t.
Qed.

Lemma find_none pat : forall s, find_text pat s = None <-> ~ occurs pat s.
Proof.
  induction s as [|c s IH]; cbn [find_text].
  - destruct (starts pat []) eqn:E.
    + split; [discriminate|]. intros H. exfalso; apply H. apply starts_iff in E. destruct E as [b ->]. now exists [], b.
    + split; auto. intros _ [a [b H]]. destruct a; [|discriminate]. assert (starts pat [] = true); [|congruence].
      apply starts_iff. now exists b.
  - destruct (starts pat (c :: s)) eqn:E.
    + split; [discriminate|]. intros H. exfalso; apply H. apply starts_iff in E. destruct E as [b ->]. now exists [], b.
    + split.
      * intros H [a [b K]]. destruct a as [|x a].
        -- assert (starts pat (c :: s) = true); [|congruence]. apply starts_iff. now exists b.
        -- injection K as _ K. destruct (find_text pat s) eqn:F; [discriminate|]. apply IH; auto. now exists a, b.
      * intros H. replace (find_text pat s) with (@None nat); auto. symmetry. apply IH. intros [a [b K]]. apply H.
        exists (c :: a), b. cbn [app]. now rewrite K.
Qed.

Lemma find_some pat : forall s i, find_text pat s = Some i <->
  (exists a b, s = a ++ pat ++ b /\ length a = i /\ forall a' b', s = a' ++ pat ++ b' -> i <= length a').
Proof.
  induction s as [|c s IH]; intros i; cbn [find_text].
  - destruct (starts pat []) eqn:E.
    + split.
      * intros H; injection H as <-. apply starts_iff in E. destruct E as [b E]. exists [], b. repeat split; auto. cbn; lia.
      * intros [a [b [H [L _]]]]. destruct a; [|discriminate]. now subst.
    + split; [discriminate|]. intros [a [b [H _]]]. destruct a; [|discriminate]. assert (starts pat [] = true); [|congruence].
      apply starts_iff. now exists b.
  - destruct (starts pat (c :: s)) eqn:E.
    + apply starts_iff in E. destruct E as [b E]. split.
      * intros H; injection H as <-. exists [], b. repeat split; auto. cbn; lia.
      * intros [a [b' [_ [L M]]]]. specialize (M [] b E). cbn in M. f_equal; lia.
    + assert (NS : forall b, c :: s <> pat ++ b).
      { intros b K. assert (starts pat (c :: s) = true); [|congruence]. apply starts_iff. now exists b. }
      split.
      * intros H. destruct (find_text pat s) as [j|] eqn:F; [|discriminate]. injection H as <-.
        destruct (proj1 (IH j) eq_refl) as [a [b [-> [L M]]]]. exists (c :: a), b. repeat split; auto; [cbn; lia|].
        intros a' b' K. destruct a' as [|x a']; [exfalso; eapply NS; exact K|]. injection K as _ K. apply M in K. cbn; lia.
      * intros [a [b [K [L M]]]]. destruct a as [|x a]; [exfalso; eapply NS; exact K|]. injection K as <- K. cbn in L. subst i.
        replace (find_text pat s) with (Some (length a)); auto. symmetry. apply IH. exists a, b. repeat split; auto.
        intros a' b' K'. specialize (M (c :: a') b'). cbn in M. rewrite K' in M. specialize (M eq_refl). lia.
Qed.

(** *** Regular expressions *)
Lemma match_word w r : forall s, match_here (word w ++ r) s =
  if starts w s then match_here r (skipn (length w) s) else None.
Proof.
  unfold word. induction w as [|a w IH]; intros s; cbn [map app starts length skipn].
  - reflexivity.
  - cbn [match_here]. destruct s as [|c s]; [reflexivity|]. destruct (Ascii.eqb a c); cbn [andb]; [|reflexivity].
    rewrite IH. destruct (starts w s); [|reflexivity]. destruct (match_here r (skipn (length w) s)); reflexivity.
Qed.

Lemma match_many_eq g p r s : match_here (Many g p :: r) s =
  match s with
  | c :: s' => if p c then match match_here (Many g p :: r) s' with Some m => Some (capture g c m) | None => match_here r s end
               else match_here r s
  | [] => match_here r s
  end.
Proof. destruct s; reflexivity. Qed.

(** Skipping characters that the next element does not accept. *)
Lemma match_skip p g q r : (forall c, p c = true -> q c = false) -> forall u v, 
  (forall c, In c u -> p c = true) -> (forall c t, v = c :: t -> p c = false) ->
  match_here (Many false p :: One g q :: r) (u ++ v) = match_here (One g q :: r) v.
Proof.
  intros D. induction u as [|c u IH]; intros v U V; rewrite match_many_eq; cbn [app].
  - destruct v as [|c v]; [reflexivity|]. now rewrite (V c v eq_refl).
  - rewrite (U c (or_introl eq_refl)). rewrite IH by (auto; intros; apply U; now right).
    destruct (match_here (One g q :: r) v) as [m|] eqn:E; [reflexivity|]. cbn [match_here]. now rewrite D by (apply U; now left).
Qed.

(** A captured run at the end of the expression. *)
Lemma match_run p r m0 : forall u v, (forall s, match_here r s = Some m0) ->
  (forall c, In c u -> p c = true) -> (forall c t, v = c :: t -> p c = false) ->
  match_here (Many true p :: r) (u ++ v) = Some (u ++ m0).
Proof.
  induction u as [|c u IH]; intros v R U V; rewrite match_many_eq; cbn [app].
  - destruct v as [|c v]; [apply R|]. rewrite (V c v eq_refl). apply R.
  - rewrite (U c (or_introl eq_refl)). rewrite IH by (auto; intros; apply U; now right). reflexivity.
Qed.
Lemma match_rest_false p : forall s, match_here [Many false p] s = Some [].
Proof.
  induction s as [|c s IH]; rewrite match_many_eq; [reflexivity|].
  destruct (p c); [|reflexivity]. now rewrite IH.
Qed.

(** Splitting off the longest run of a class. *)
Fixpoint run (p : ascii -> bool) (s : text) : text * text :=
  match s with
  | c :: s' => if p c then (c :: fst (run p s'), snd (run p s')) else ([], s)
  | [] => ([], [])
  end.
Lemma run_ok p : forall s, s = fst (run p s) ++ snd (run p s) /\ (forall c, In c (fst (run p s)) -> p c = true) /\
  (forall c t, snd (run p s) = c :: t -> p c = false).
Proof.
  induction s as [|c s [E [A B]]]; cbn [run].
  - repeat split; [intros c []|discriminate].
  - destruct (p c) eqn:P; cbn [fst snd app].
    + repeat split; [f_equal; exact E| |exact B]. intros d [<-|D]; auto.
    + repeat split; [intros d []|]. intros d t K. injection K as <- _. exact P.
Qed.
Lemma run_ex (p : ascii -> bool) (s : text) : exists u v, s = u ++ v /\ (forall c, In c u -> p c = true) /\
  (forall c t, v = c :: t -> p c = false).
Proof. exists (fst (run p s)), (snd (run p s)). apply run_ok. Qed.
Lemma run_unique (p : ascii -> bool) (u v u' v' : text) : u ++ v = u' ++ v' -> (forall c, In c u -> p c = true) -> (forall c t, v = c :: t -> p c = false) ->
  (forall c, In c u' -> p c = true) -> (forall c t, v' = c :: t -> p c = false) -> u = u' /\ v = v'.
Proof.
  revert u'. induction u as [|c u IH]; intros [|c' u'] E A B A' B'; cbn [app] in E.
  - auto.
  - exfalso. specialize (B c' (u' ++ v') E). rewrite (A' c' (or_introl eq_refl)) in B. discriminate.
  - exfalso. specialize (B' c (u ++ v) (eq_sym E)). rewrite (A c (or_introl eq_refl)) in B'. discriminate.
  - injection E as <- E. destruct (IH u' E) as [-> ->]; auto; intros; [apply A|apply A']; now right.
Qed.

(** Digits followed by one more word character. *)
Lemma match_digits_word (rest : ascii -> bool) : forall d v, (forall c, In c d -> is_digit c = true) ->
  (forall c t, v = c :: t -> is_digit c = false) ->
  match_here [Many true is_digit; One true is_word; Many false rest] (d ++ v) =
  match v with
  | c :: _ => if is_word c then Some (d ++ [c]) else match d with [] => None | _ => Some d end
  | [] => match d with [] => None | _ => Some d end
  end.
Proof.
  induction d as [|c d IH]; intros v D V; rewrite match_many_eq; cbn [app].
  - destruct v as [|c v]; [reflexivity|]. rewrite (V c v eq_refl). change (match_here [One true is_word; Many false rest] (c :: v)) with
      (if is_word c then option_map (capture true c) (match_here [Many false rest] v) else None).
    rewrite match_rest_false. reflexivity.
  - rewrite (D c (or_introl eq_refl)). rewrite IH by (auto; intros; apply D; now right).
    assert (W : is_word c = true). { unfold is_word, is_alnum. now rewrite (D c (or_introl eq_refl)). }
    assert (O : match_here [One true is_word; Many false rest] (c :: d ++ v) = Some [c]).
    { change (match_here [One true is_word; Many false rest] (c :: d ++ v)) with
        (if is_word c then option_map (capture true c) (match_here [Many false rest] (d ++ v)) else None).
      rewrite W, match_rest_false. reflexivity. }
    destruct v as [|x v]; [|destruct (is_word x); [reflexivity|]].
    + destruct d; [rewrite O|]; reflexivity.
    + destruct d; [rewrite O|]; reflexivity.
Qed.

Lemma search_none r : forall s, regex_search r s = None <-> forall a t, s = a ++ t -> match_here r t = None.
Proof.
  induction s as [|c s IH]; cbn [regex_search].
  - split.
    + intros H a t E. destruct a; [|discriminate]. cbn [app] in E. subst t. now destruct (match_here r []).
    + intros H. now rewrite (H [] [] eq_refl).
  - split.
    + intros H a t E. destruct (match_here r (c :: s)) eqn:M; [discriminate|]. destruct a as [|x a]; cbn [app] in E; [now subst|].
      injection E as _ E. eapply IH; eauto.
    + intros H. rewrite (H [] (c :: s) eq_refl). apply IH. intros a t ->. now apply (H (c :: a)).
Qed.
Lemma search_some r m : forall s, regex_search r s = Some m <->
  exists a t, s = a ++ t /\ match_here r t = Some m /\ forall a' t', s = a' ++ t' -> length a' < length a -> match_here r t' = None.
Proof.
  induction s as [|c s IH]; cbn [regex_search].
  - split.
    + intros H. exists [], []. repeat split; [now destruct (match_here r [])|]. cbn; lia.
    + intros [a [t [E [M _]]]]. destruct a; [|discriminate]. cbn [app] in E. subst t. now rewrite M.
  - split.
    + intros H. destruct (match_here r (c :: s)) eqn:M.
      * exists [], (c :: s). repeat split; [congruence|]. cbn; lia.
      * destruct (proj1 IH H) as [a [t [-> [Mt L]]]]. exists (c :: a), t. repeat split; auto.
        intros a' t' E K. destruct a' as [|x a']; cbn [app] in E; [now subst|]. injection E as _ E. apply (L a' t' E). cbn in K; lia.
    + intros [a [t [E [M L]]]]. destruct a as [|x a]; cbn [app] in E; [subst; now rewrite M|].
      rewrite (L [] (c :: s) eq_refl) by (cbn; lia). injection E as <- ->. apply IH. exists a, t. repeat split; auto.
      intros a' t' K1 K2. apply (L (c :: a')); [now rewrite K1|cbn; lia].
Qed.

(** *** Numbers *)
Lemma digit_val d : (0 <= d < 10)%Z -> digit_value (digit d) d /\ is_digit (digit d) = true /\ undigit (digit d) = d.
Proof.
  intros H. assert (C : (d = 0 \/ d = 1 \/ d = 2 \/ d = 3 \/ d = 4 \/ d = 5 \/ d = 6 \/ d = 7 \/ d = 8 \/ d = 9)%Z) by lia.
  destruct C as [->|[->|[->|[->|[->|[->|[->|[->|[->| ->]]]]]]]]]; (split; [split; [lia|reflexivity]|split; reflexivity]).
Qed.

Lemma digit_value_fun c d : digit_value c d -> (0 <= d < 10)%Z /\ c = digit d.
Proof.
  intros [P E]. assert (L : Z.to_nat d < length digits) by (apply nth_error_Some; congruence).
  change (length digits) with 10 in L. assert (R : (0 <= d < 10)%Z) by lia. split; auto.
  destruct (digit_val d R) as [[_ E'] _]. congruence.
Qed.

Lemma dec_ok : forall fuel n, (0 <= n < 2 ^ (Z.of_nat fuel + 1))%Z -> decimal (dec fuel n) n.
Proof.
  induction fuel as [|fuel IH]; intros n H; cbn [dec].
  - change (2 ^ (Z.of_nat 0 + 1))%Z with 2%Z in H. rewrite Z.mod_small by lia. constructor. apply digit_val; lia.
  - destruct (Z.ltb_spec n 10) as [L|L].
    + constructor. apply digit_val; lia.
    + pose proof (Z.div_mod n 10 ltac:(lia)) as D. pose proof (Z.mod_pos_bound n 10 ltac:(lia)) as M.
      rewrite D at 3. constructor; [|apply digit_val; lia]. apply IH. split; [apply Z.div_pos; lia|].
      apply Z.div_lt_upper_bound; [lia|]. replace (Z.of_nat (S fuel) + 1)%Z with (Z.of_nat fuel + 1 + 1)%Z in H by lia.
      rewrite (Z.pow_add_r 2 (Z.of_nat fuel + 1) 1) in H by lia.
      change (2 ^ 1)%Z with 2%Z in H. lia.
Qed.
Lemma dec_full n : (0 <= n)%Z -> decimal (dec (Z.to_nat (Z.log2 n)) n) n.
Proof.
  intros H. apply dec_ok. split; auto. rewrite Z2Nat.id by apply Z.log2_nonneg. destruct (Z.eq_dec n 0) as [->|K]; [reflexivity|].
  pose proof (Z.log2_spec n ltac:(lia)) as S. unfold Z.succ in S. lia.
Qed.

Lemma decimal_digits s n : decimal s n -> s <> [] /\ (0 <= n)%Z /\ (forall c, In c s -> is_digit c = true).
Proof.
  induction 1 as [c d D|s n c d _ [N [P A]] D]; apply digit_value_fun in D; destruct D as [R ->].
  - split; [discriminate|]. split; [lia|]. intros c [<-|[]]. now apply digit_val.
  - split; [now destruct s|]. split; [lia|]. intros x X. apply in_app_iff in X. destruct X as [X|[<-|[]]]; auto. now apply digit_val.
Qed.
Lemma read_app : forall u v acc, (forall c, In c u -> is_digit c = true) ->
  read_digits acc (u ++ v) = read_digits (read_digits acc u) v.
Proof.
  induction u as [|c u IH]; intros v acc A; cbn [app read_digits]; [reflexivity|].
  rewrite (A c (or_introl eq_refl)). apply IH. intros; apply A; now right.
Qed.
Lemma read_end v acc : (forall c t, v = c :: t -> is_digit c = false) -> read_digits acc v = acc.
Proof. intros H. destruct v as [|c v]; [reflexivity|]. cbn [read_digits]. now rewrite (H c v eq_refl). Qed.
Lemma read_decimal s n : decimal s n -> forall v, (forall c t, v = c :: t -> is_digit c = false) -> read_digits 0 (s ++ v) = n.
Proof.
  intros D v V. rewrite read_app by (eapply decimal_digits; eauto). rewrite read_end by exact V. clear v V.
  induction D as [c d D|s n c d D IH D']; apply digit_value_fun in D || apply digit_value_fun in D'.
  - destruct D as [R ->]. cbn [read_digits]. destruct (digit_val d R) as [_ [-> ->]]. lia.
  - destruct D' as [R ->]. rewrite read_app by (eapply decimal_digits; eauto). rewrite IH. cbn [read_digits].
    destruct (digit_val d R) as [_ [-> ->]]. lia.
Qed.

Lemma decimal_head s n : decimal s n -> exists c t, s = c :: t /\ is_digit c = true.
Proof.
  intros D. destruct (decimal_digits s n D) as [N [_ A]]. destruct s as [|c t]; [congruence|]. exists c, t. split; auto. apply A; now left.
Qed.

(** What stoi reads: white space, a sign and a number, followed by anything. *)
Lemma stoi_ok w sg s n v : (forall c, In c w -> is_space c = true) -> decimal s n -> (forall c t, v = c :: t -> is_digit c = false) ->
  (sg = [] \/ sg = ["+"%char] \/ sg = ["-"%char]) ->
  stoi (w ++ sg ++ s ++ v) = (let k := match sg with [c] => if Ascii.eqb c "-" then (- n)%Z else n | _ => n end in
    if ((- 2 ^ 31 <=? k) && (k <? 2 ^ 31))%Z then Ok k else Throw OutOfRange).
Proof.
  intros W D V SG. destruct (decimal_head s n D) as [c [t [E C]]].
  assert (SP : is_space c = false /\ Ascii.eqb c "-" = false /\ Ascii.eqb c "+" = false).
  { destruct c as [[] [] [] [] [] [] [] []]; try discriminate C; repeat split; reflexivity. }
  destruct SP as [S1 [S2 S3]].
  assert (K : skip_spaces (w ++ sg ++ s ++ v) = sg ++ s ++ v).
  { clear - W SG E S1. induction w as [|x w IH]; cbn [app skip_spaces].
    - destruct SG as [->|[->| ->]]; cbn [app skip_spaces]; [subst s; cbn [app skip_spaces]; now rewrite S1|reflexivity|reflexivity].
    - rewrite (W x (or_introl eq_refl)). apply IH. intros; apply W; now right. }
  unfold stoi. rewrite K. pose proof (read_decimal s n D v V) as RD. subst s.
  destruct SG as [->|[->| ->]]; cbn [app] in *.
  - rewrite S2, S3. cbn [orb]. rewrite C, RD. reflexivity.
  - cbn [Ascii.eqb Bool.eqb orb]. rewrite C, RD. reflexivity.
  - cbn [Ascii.eqb Bool.eqb orb]. rewrite C, RD. reflexivity.
Qed.
