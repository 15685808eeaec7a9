(** Theorems about swaths and single-cell swath ordering. *)
From Coq Require Import List Arith ZArith Lia Bool Permutation Sorted.
From Verif Require Import Outcome ListAux Swath_Model Swath_Spec
  Swath_Proofs Swath_Proofs2 Swath_Proofs3.
Import ListNotations.

(** Concrete instance used by the examples: integer points and widths, the
    lexicographic order of Point::operator<, a lossless text round trip, and
    insertion sort for std::sort. *)
Definition zpt : Type := (Z * Z)%type.
Definition zlt (p q : zpt) : bool :=
  ((fst p <? fst q) || ((fst p =? fst q) && (snd p <? snd q)))%Z.
Definition zw_nonpos (w : Z) : bool := (w <=? 0)%Z.
Definition zsort : list (swath zpt Z) -> list (swath zpt Z) := isort_by sw_id.
Definition zgen (k : order_kind) (l : list (swath zpt Z)) (v : N) :=
  genSortedSwaths zw_nonpos 0%Z (0, 0)%Z zlt (fun p => p) zsort k l v.
Definition zsw (id : Z) (a b : zpt) (d : bool) : swath zpt Z :=
  mkSwath zpt Z id [a; b] 1%Z d MAINLAND.
Definition zline (n : nat) : list (swath zpt Z) :=
  map (fun i => zsw (Z.of_nat i) (0, Z.of_nat i)%Z (10, Z.of_nat i)%Z true) (seq 0 n).

Lemma zsort_ok : forall l, std_sorted swath_lt l (zsort l).
Proof. exact (isort_by_ok sw_id). Qed.

(** C01 *)
Theorem ordering_permutes :
  forall (P W : Type) (w_nonpos : W -> bool) (w_zero : W) (p_default : P)
    (p_lt : P -> P -> bool) (wkt : P -> P) (sort_fn : list (swath P W) -> list (swath P W)),
  (forall l, std_sorted swath_lt l (sort_fn l)) ->
  forall k l v r,
  genSortedSwaths w_nonpos w_zero p_default p_lt wkt sort_fn k l v = Ok r ->
  exists l', Permutation l l' /\ Forall2 (same_swath wkt) l' r.
Proof. exact @gen_perm. Qed.
Print Assumptions ordering_permutes.

Example ordering_permutes_ex :
  (forall l, std_sorted swath_lt l (zsort l)) /\
  zgen (Spiral 4) (rev (zline 7)) 3 = Ok (map (fun p => zsw (fst p)
     (if snd p : bool then (0, fst p)%Z else (10, fst p)%Z)
     (if snd p then (10, fst p)%Z else (0, fst p)%Z) (snd p))
     [(6, false); (3, true); (5, false); (4, true); (2, false); (0, true); (1, false)]%Z).
Proof. split; [exact zsort_ok|vm_compute; reflexivity]. Qed.

(** C02, C04, C06, C09: the exact position of every swath.  [s] is the input in
    increasing id order; the i-th driven swath is element [order_pos] of it,
    counted from the end when the variant is odd. *)
Theorem ordering_positions :
  forall (P W : Type) (w_nonpos : W -> bool) (w_zero : W) (p_default : P)
    (p_lt : P -> P -> bool) (wkt : P -> P) (sort_fn : list (swath P W) -> list (swath P W)),
  (forall l, std_sorted swath_lt l (sort_fn l)) ->
  forall k l v r,
  genSortedSwaths w_nonpos w_zero p_default p_lt wkt sort_fn k l v = Ok r ->
  exists s, Permutation l s /\
    StronglySorted (fun a b => (sw_id a <= sw_id b)%Z) s /\
    length r = length l /\
    forall i, i < length l -> exists a b,
      nth_error s (variant_pos (N.odd v) (length l) (order_pos k (length l) i)) = Some a /\
      nth_error r i = Some b /\ same_swath wkt a b.
Proof. exact @gen_positions. Qed.
Print Assumptions ordering_positions.

Example ordering_positions_ex :
  map (snake_pos 7) (seq 0 7) = [0; 2; 4; 6; 5; 3; 1] /\
  (exists r, zgen Snake (zline 7) 0 = Ok r /\ map sw_id r = [0; 2; 4; 6; 5; 3; 1]%Z) /\
  map (spiral_pos 5 11) (seq 0 11) = [0; 4; 1; 3; 2; 9; 5; 8; 6; 7; 10] /\
  (exists r, zgen (Spiral 5) (zline 11) 0 = Ok r /\
     map sw_id r = [0; 4; 1; 3; 2; 9; 5; 8; 6; 7; 10]%Z).
Proof. repeat split; try (eexists; split); vm_compute; reflexivity. Qed.

(** C03, C05, C06: when ordering succeeds. *)
Theorem ordering_succeeds_iff :
  forall (P W : Type) (w_nonpos : W -> bool) (w_zero : W) (p_default : P)
    (p_lt : P -> P -> bool) (wkt : P -> P) (sort_fn : list (swath P W) -> list (swath P W)),
  (forall l, std_sorted swath_lt l (sort_fn l)) ->
  forall k l v,
  (exists r, genSortedSwaths w_nonpos w_zero p_default p_lt wkt sort_fn k l v = Ok r)
  <-> (Forall (fun s => w_nonpos (sw_width s) = false) l /\
       (l = [] \/ order_usable k (length l))).
Proof. exact @gen_success. Qed.
Print Assumptions ordering_succeeds_iff.

Example ordering_succeeds_iff_ex :
  Forall (fun s => zw_nonpos (sw_width s) = false) (zline 3) /\
  order_usable (Custom [2; 0; 1]) (length (zline 3)).
Proof.
  split; [repeat constructor|]. simpl.
  apply perm_trans with [0; 2; 1]; [apply perm_swap|]. apply perm_skip. apply perm_swap.
Qed.

(** C03, C05, C06: the only ways to fail. *)
Theorem ordering_outcomes :
  forall (P W : Type) (w_nonpos : W -> bool) (w_zero : W) (p_default : P)
    (p_lt : P -> P -> bool) (wkt : P -> P) (sort_fn : list (swath P W) -> list (swath P W)),
  (forall l, std_sorted swath_lt l (sort_fn l)) ->
  forall k l v, let g := genSortedSwaths w_nonpos w_zero p_default p_lt wkt sort_fn k l v in
  (exists r, g = Ok r) \/
  (g = Throw InvalidArgument /\ Exists (fun s => w_nonpos (sw_width s) = true) l) \/
  (exists e, g = Throw e /\ exists o, k = Custom o) \/
  (g = UB /\ ((k = Snake /\ length l = 1) \/ (k = Spiral 0 /\ l <> []))).
Proof. exact @gen_outcomes. Qed.
Print Assumptions ordering_outcomes.

Example ordering_outcomes_ex :
  zgen (Custom [0; 0; 1]) (zline 3) 0 = Throw InvalidArgument /\
  zgen (Custom [0; 1]) (zline 3) 0 = Throw LengthError /\
  zgen (Custom [0; 1; 3]) (zline 3) 0 = Throw InvalidArgument /\
  (exists r, zgen Snake (zline 2) 0 = Ok r).
Proof. repeat split; try eexists; vm_compute; reflexivity. Qed.

(** C03, refuted: one swath and SnakeOrder is undefined behaviour
    (std::reverse(begin + 2, end) on a vector of size 1). *)
Theorem snake_safe_refuted :
  exists l, l <> [] /\ Forall (fun s => zw_nonpos (sw_width s) = false) l /\
    zgen Snake l 0 = UB.
Proof.
  exists [zsw 0 (0, 0)%Z (1, 0)%Z true].
  split; [discriminate|split]; [repeat constructor|vm_compute; reflexivity].
Qed.
Print Assumptions snake_safe_refuted.

(** C05, refuted: setSpiralSize(0) leads to a division by zero. *)
Theorem spiral_size_safe_refuted :
  exists l, Forall (fun s => zw_nonpos (sw_width s) = false) l /\
    zgen (Spiral 0) l 0 = UB.
Proof.
  exists (zline 4). split; [repeat constructor|vm_compute; reflexivity].
Qed.
Print Assumptions spiral_size_safe_refuted.

(** C05, what holds: every size >= 1, in particular every size a constructor
    can leave, is safe for every list of swaths with positive width. *)
Theorem spiral_size_safe :
  forall (P W : Type) (w_nonpos : W -> bool) (w_zero : W) (p_default : P)
    (p_lt : P -> P -> bool) (wkt : P -> P) (sort_fn : list (swath P W) -> list (swath P W)),
  (forall l, std_sorted swath_lt l (sort_fn l)) ->
  forall n l v, Forall (fun s => w_nonpos (sw_width s) = false) l ->
  exists r, genSortedSwaths w_nonpos w_zero p_default p_lt wkt sort_fn
              (Spiral (spiral_ctor_size n)) l v = Ok r.
Proof.
  intros P W wn wz pd lt wkt sf Hs n l v Hw.
  apply (gen_success wn wz pd lt wkt sf Hs). split; auto.
  right. simpl. unfold spiral_ctor_size. lia.
Qed.
Print Assumptions spiral_size_safe.

Example spiral_size_safe_ex :
  Forall (fun s => zw_nonpos (sw_width s) = false) (zline 9) /\ spiral_ctor_size 0 = 2.
Proof. split; [repeat constructor|reflexivity]. Qed.

(** C06: exact validation by CustomOrder on a non-empty list. *)
Theorem custom_order_exact :
  forall (P W : Type) (w_zero : W) (o : list nat) (l : list (swath P W)),
  l <> [] ->
  (~ NoDup o -> custom_sortSwaths w_zero o l = Throw InvalidArgument) /\
  (NoDup o -> length o <> length l -> custom_sortSwaths w_zero o l = Throw LengthError) /\
  (NoDup o -> length o = length l -> (exists x, In x o /\ length l <= x) ->
     custom_sortSwaths w_zero o l = Throw InvalidArgument) /\
  (Permutation o (seq 0 (length l)) ->
     exists r, custom_sortSwaths w_zero o l = Ok r /\ length r = length l /\
       forall i, i < length l -> nth_error r i = nth_error l (nth i o 0)).
Proof.
  intros P W wz o l Hl. destruct (custom_spec wz o l Hl) as (H1 & H2 & H3 & H4).
  repeat split; auto. intro Hp. destruct (H4 Hp) as (r & Hr & L & H).
  exists r. repeat split; auto. intros i Hi. apply H; auto.
Qed.
Print Assumptions custom_order_exact.

Example custom_order_exact_ex :
  exists r, custom_sortSwaths 0%Z [2; 0; 1] (zline 3) = Ok r /\ map sw_id r = [2; 0; 1]%Z.
Proof. eexists; split; vm_compute; reflexivity. Qed.

(** C07 *)
Theorem ordering_flags_alternate :
  forall (P W : Type) (w_nonpos : W -> bool) (w_zero : W) (p_default : P)
    (p_lt : P -> P -> bool) (wkt : P -> P) (sort_fn : list (swath P W) -> list (swath P W)),
  forall k l v r,
  genSortedSwaths w_nonpos w_zero p_default p_lt wkt sort_fn k l v = Ok r ->
  forall i a b, nth_error r i = Some a -> nth_error r (S i) = Some b ->
    sw_dir b = negb (sw_dir a).
Proof. exact @gen_alternates. Qed.
Print Assumptions ordering_flags_alternate.

Example ordering_flags_alternate_ex :
  exists r, zgen Snake (zline 5) 1 = Ok r /\ map sw_dir r = [true; false; true; false; true].
Proof. eexists; split; vm_compute; reflexivity. Qed.

(** C08, refuted: two parallel horizontal swaths drawn in opposite directions
    (both freshly created, flag true): both are driven from left to right. *)
Theorem geometric_alternation_refuted :
  exists l r a b,
    (forall s, In s l -> runs_right zlt s \/ runs_left zlt s) /\
    (forall s, In s l -> sw_dir s = true) /\
    zgen Boustrophedon l 0 = Ok r /\
    nth_error r 0 = Some a /\ nth_error r 1 = Some b /\
    runs_right zlt a /\ runs_right zlt b.
Proof.
  exists [zsw 0 (0, 0)%Z (10, 0)%Z true; zsw 1 (10, 1)%Z (0, 1)%Z true].
  eexists. eexists. eexists.
  repeat split; try (vm_compute; reflexivity).
  - intros s [<-|[<-|[]]]; [left|right]; do 2 eexists; exists []; split; reflexivity.
  - intros s [<-|[<-|[]]]; reflexivity.
  - do 2 eexists; exists []; split; reflexivity.
  - do 2 eexists; exists []; split; reflexivity.
Qed.
Print Assumptions geometric_alternation_refuted.

(** C08, what holds: if all swaths were drawn in the direction their flag says
    (all freshly created in one direction, or reversed through reverse()),
    neighbours in the result run in opposite geometric directions. *)
Theorem geometric_alternation_consistent :
  forall (P W : Type) (w_nonpos : W -> bool) (w_zero : W) (p_default : P)
    (p_lt : P -> P -> bool) (wkt : P -> P) (sort_fn : list (swath P W) -> list (swath P W)),
  (forall l, std_sorted swath_lt l (sort_fn l)) ->
  forall k l v r c,
  genSortedSwaths w_nonpos w_zero p_default p_lt wkt sort_fn k l v = Ok r ->
  (forall s p, In s l -> In p (sw_path s) -> wkt p = p) ->
  (forall s, In s l -> drawn p_lt c s) ->
  forall i a b, nth_error r i = Some a -> nth_error r (S i) = Some b ->
    (runs_right p_lt a /\ runs_left p_lt b) \/ (runs_left p_lt a /\ runs_right p_lt b).
Proof. exact @gen_geometric. Qed.
Print Assumptions geometric_alternation_consistent.

Example geometric_alternation_consistent_ex :
  let l := [zsw 1 (10, 1)%Z (0, 1)%Z false; zsw 0 (0, 0)%Z (10, 0)%Z true] in
  (forall s, In s l -> drawn zlt true s) /\
  zgen Boustrophedon l 0 =
    Ok [zsw 0 (0, 0)%Z (10, 0)%Z true; zsw 1 (10, 1)%Z (0, 1)%Z false].
Proof.
  split; [|vm_compute; reflexivity].
  intros s [<-|[<-|[]]]; [right|left]; (split; [reflexivity|]);
    do 2 eexists; exists []; split; reflexivity.
Qed.

(** C09: only the two lowest bits of the variant matter. *)
Theorem variant_mod_4 :
  forall (P W : Type) (w_nonpos : W -> bool) (w_zero : W) (p_default : P)
    (p_lt : P -> P -> bool) (wkt : P -> P) (sort_fn : list (swath P W) -> list (swath P W)),
  forall k l v,
  genSortedSwaths w_nonpos w_zero p_default p_lt wkt sort_fn k l (v mod 4)%N
  = genSortedSwaths w_nonpos w_zero p_default p_lt wkt sort_fn k l v.
Proof. exact @gen_variant_mod4. Qed.
Print Assumptions variant_mod_4.

Example variant_mod_4_ex : zgen Snake (zline 5) 7 = zgen Snake (zline 5) 3.
Proof. vm_compute; reflexivity. Qed.

(** C09: bit 1 reverses the direction of every swath of the result (strategies
    that keep the first sorted swath first, see [order_pos_first]). *)
Theorem variant_bit1_reverses :
  forall (P W : Type) (w_nonpos : W -> bool) (w_zero : W) (p_default : P)
    (p_lt : P -> P -> bool) (wkt : P -> P) (sort_fn : list (swath P W) -> list (swath P W)),
  (forall l, std_sorted swath_lt l (sort_fn l)) ->
  forall k l v r,
  genSortedSwaths w_nonpos w_zero p_default p_lt wkt sort_fn k l v = Ok r ->
  N.testbit v 1 = false ->
  order_pos k (length l) 0 = 0 ->
  genSortedSwaths w_nonpos w_zero p_default p_lt wkt sort_fn k l (v + 2)
  = Ok (map swath_reverse r).
Proof. exact @gen_bit1. Qed.
Print Assumptions variant_bit1_reverses.

Example variant_bit1_reverses_ex :
  (exists r, zgen Snake (zline 5) 1 = Ok r) /\ N.testbit 1 1 = false /\
  order_pos Snake (length (zline 5)) 0 = 0.
Proof. repeat split; try eexists; vm_compute; reflexivity. Qed.

Theorem order_pos_first :
  forall k n, n <> 0 -> order_usable k n ->
    (match k with Custom _ => False | _ => True end) -> order_pos k n 0 = 0.
Proof. exact order_pos_head. Qed.
Print Assumptions order_pos_first.

Example order_pos_first_ex : order_usable (Spiral 3) 7 /\ order_usable Snake 7.
Proof. split; simpl; lia. Qed.

(** C09, refuted for CustomOrder: with an order that does not start with swath
    0, bit 1 has no effect at all. *)
Theorem variant_bit1_refuted :
  exists o l r, zgen (Custom o) l 0 = Ok r /\ zgen (Custom o) l 2 = Ok r /\ r <> [].
Proof.
  exists [1; 0; 2], (zline 3). eexists.
  split; [|split]; [vm_compute; reflexivity|vm_compute; reflexivity|discriminate].
Qed.
Print Assumptions variant_bit1_refuted.

Theorem variant_bit1_custom_no_effect :
  forall (P W : Type) (w_nonpos : W -> bool) (w_zero : W) (p_default : P)
    (p_lt : P -> P -> bool) (wkt : P -> P) (sort_fn : list (swath P W) -> list (swath P W)),
  (forall l, std_sorted swath_lt l (sort_fn l)) ->
  forall o l v r,
  genSortedSwaths w_nonpos w_zero p_default p_lt wkt sort_fn (Custom o) l v = Ok r ->
  N.testbit v 1 = false -> l <> [] -> nth 0 o 0 <> 0 ->
  genSortedSwaths w_nonpos w_zero p_default p_lt wkt sort_fn (Custom o) l (v + 2) = Ok r.
Proof. exact @gen_bit1_custom_noeffect. Qed.
Print Assumptions variant_bit1_custom_no_effect.

Example variant_bit1_custom_no_effect_ex :
  (exists r, zgen (Custom [1; 0; 2]) (zline 3) 0 = Ok r) /\ nth 0 [1; 0; 2] 0 <> 0.
Proof. split; [eexists; vm_compute; reflexivity|discriminate]. Qed.

(** C10: what clone() does exactly. *)
Theorem clone_exact :
  forall (P W : Type) (w_nonpos : W -> bool) (w_zero : W) (wkt : P -> P) (s : swath P W),
  (w_nonpos (sw_width s) = true ->
     swath_clone w_nonpos w_zero wkt s = Throw InvalidArgument) /\
  (w_nonpos (sw_width s) = false ->
     exists c, swath_clone w_nonpos w_zero wkt s = Ok c /\
       sw_id c = sw_id s /\ sw_width c = sw_width s /\ sw_dir c = sw_dir s /\
       sw_path c = map wkt (sw_path s) /\ sw_type c = MAINLAND).
Proof.
  intros. rewrite swath_clone_def.
  destruct (w_nonpos (sw_width s)); split; intro H; try discriminate; auto.
  eexists. repeat split.
Qed.
Print Assumptions clone_exact.

Example clone_exact_ex :
  swath_clone zw_nonpos 0%Z (fun p => p) (zsw 3 (0, 0)%Z (5, 0)%Z false)
  = Ok (zsw 3 (0, 0)%Z (5, 0)%Z false).
Proof. reflexivity. Qed.

(** C10, refuted: the swath type is lost, and a swath without width (default
    constructor, or constructor from a line) cannot be cloned. *)
Theorem clone_type_refuted :
  exists s c, zw_nonpos (sw_width s) = false /\
    swath_clone zw_nonpos 0%Z (fun p : zpt => p) s = Ok c /\ sw_type c <> sw_type s.
Proof.
  exists (swath_setType (zsw 3 (0, 0)%Z (5, 0)%Z false) HEADLAND). eexists.
  split; [|split]; [reflexivity|reflexivity|discriminate].
Qed.
Print Assumptions clone_type_refuted.

Theorem clone_fails_refuted :
  exists path : list zpt,
    swath_clone zw_nonpos 0%Z (fun p => p) (swath_of_path 0%Z path) = Throw InvalidArgument.
Proof. exists [(0, 0); (5, 0)]%Z. reflexivity. Qed.
Print Assumptions clone_fails_refuted.

(** C11, refuted.  Instance: integer coordinates and lengths (axis-parallel
    two-point lines, so lengths are exact). *)
Definition zneq (a b : Z) : bool := negb (a =? b)%Z.
Definition zneq_xy (p q : zpt) : bool := zneq (fst p) (fst q) || zneq (snd p) (snd q).
Definition zlen (l : list zpt) : Z :=
  match l with
  | [p; q] => (Z.abs (fst p - fst q) + Z.abs (snd p - snd q))%Z
  | _ => 0%Z
  end.
Notation zs_eq := (swath_eq (0, 0)%Z zneq zneq_xy zlen).
Notation zs_neq := (swath_neq (0, 0)%Z zneq zneq_xy zlen).
Notation zs_le := (swath_le (0, 0)%Z zneq zneq_xy zlen).
Notation zs_ge := (swath_ge (0, 0)%Z zneq zneq_xy zlen).

Theorem swath_eq_symmetric_refuted :
  exists a b : swath zpt Z, zs_eq a b = true /\ zs_eq b a = false.
Proof.
  exists (zsw 1 (0, 0)%Z (1, 0)%Z true), (zsw 1 (1, 0)%Z (1, 1)%Z false).
  split; vm_compute; reflexivity.
Qed.
Print Assumptions swath_eq_symmetric_refuted.

(** Both [a == b] and [a != b] hold. *)
Theorem swath_neq_negation_refuted :
  exists a b : swath zpt Z, zs_eq a b = true /\ zs_neq a b = true.
Proof.
  exists (zsw 1 (0, 0)%Z (1, 0)%Z true), (zsw 1 (1, 0)%Z (1, 1)%Z false).
  split; vm_compute; reflexivity.
Qed.
Print Assumptions swath_neq_negation_refuted.

(** [a >= b] holds but [b <= a] does not. *)
Theorem swath_le_ge_refuted :
  exists a b : swath zpt Z, zs_ge a b = true /\ zs_le b a = false.
Proof.
  exists (zsw 1 (0, 0)%Z (1, 0)%Z true), (zsw 1 (1, 0)%Z (1, 1)%Z false).
  split; vm_compute; reflexivity.
Qed.
Print Assumptions swath_le_ge_refuted.

(** C11, what holds: for swaths with the same direction flag the operators are
    consistent, and a swath equals its own reverse. *)
Theorem swath_cmp_same_direction :
  forall (P W : Type) (p_default : P) (w_neq : W -> W -> bool)
    (p_neq_xy : P -> P -> bool) (path_length : list P -> W),
  (forall a b, w_neq a b = w_neq b a) -> (forall a b, p_neq_xy a b = p_neq_xy b a) ->
  forall s t : swath P W, sw_dir s = sw_dir t ->
  let eq := swath_eq p_default w_neq p_neq_xy path_length in
  let neq := swath_neq p_default w_neq p_neq_xy path_length in
  let le := swath_le p_default w_neq p_neq_xy path_length in
  let ge := swath_ge p_default w_neq p_neq_xy path_length in
  eq s t = eq t s /\ neq s t = negb (eq s t) /\ le s t = ge t s /\
  (le s t = true <-> swath_lt s t = true \/ (sw_id s = sw_id t /\ eq s t = true)) /\
  (swath_gt s t = swath_lt t s).
Proof.
  intros P W pd wn pn len Hw Hp s t Hd eq neq le ge.
  pose proof (neq_sym_same_dir pd wn pn len s t Hw Hp Hd) as E.
  assert (Eeq : eq s t = eq t s) by (unfold eq, swath_eq; rewrite E; auto).
  repeat split; auto.
  - unfold eq, swath_eq, neq. rewrite negb_involutive; auto.
  - unfold le, ge, swath_le, swath_ge. fold eq. rewrite Eeq, (Z.eqb_sym (sw_id t)). auto.
  - unfold le, swath_le, swath_lt. fold eq. intro H. apply orb_true_iff in H.
    destruct H as [H|H]; auto. apply andb_true_iff in H. destruct H as [H1 H2].
    apply Z.eqb_eq in H1. auto.
  - unfold le, swath_le, swath_lt. fold eq. intros [H|[H1 H2]]; apply orb_true_iff; auto.
    right. apply andb_true_iff. split; auto. apply Z.eqb_eq; auto.
Qed.
Print Assumptions swath_cmp_same_direction.

Example swath_cmp_same_direction_ex :
  (forall a b, zneq a b = zneq b a) /\ (forall a b, zneq_xy a b = zneq_xy b a) /\
  zs_eq (zsw 1 (1, 0)%Z (1, 1)%Z true) (zsw 1 (1, 0)%Z (2, 0)%Z true) = true.
Proof.
  assert (H : forall a b, zneq a b = zneq b a).
  { intros a b. unfold zneq. rewrite Z.eqb_sym. auto. }
  repeat split; auto. intros [a b] [c d]. unfold zneq_xy. simpl. rewrite (H a), (H b). auto.
Qed.

Theorem swath_eq_own_reverse :
  forall (P W : Type) (p_default : P) (w_neq : W -> W -> bool)
    (p_neq_xy : P -> P -> bool) (path_length : list P -> W) (s : swath P W),
  w_neq (sw_width s) (sw_width s) = false ->
  p_neq_xy (swath_startPoint p_default s) (swath_startPoint p_default s) = false ->
  p_neq_xy (swath_endPoint p_default s) (swath_endPoint p_default s) = false ->
  w_neq (path_length (rev (sw_path s))) (path_length (sw_path s)) = false ->
  w_neq (path_length (sw_path s)) (path_length (rev (sw_path s))) = false ->
  swath_eq p_default w_neq p_neq_xy path_length s (swath_reverse s) = true /\
  swath_eq p_default w_neq p_neq_xy path_length (swath_reverse s) s = true.
Proof. exact @eq_reverse. Qed.
Print Assumptions swath_eq_own_reverse.

Example swath_eq_own_reverse_ex :
  let s := zsw 1 (1, 0)%Z (1, 5)%Z true in
  zneq (zlen (rev (sw_path s))) (zlen (sw_path s)) = false /\
  zneq_xy (swath_startPoint (0,0)%Z s) (swath_endPoint (0,0)%Z s) = true.
Proof. split; vm_compute; reflexivity. Qed.

(** C12 *)
Theorem append_lines_ids :
  forall (P W : Type) (w_nonpos : W -> bool) (w_zero : W) (wkt : P -> P) ty w
    (lines : list (list P)) (l : list (swath P W)),
  (w_nonpos w = true -> lines <> [] ->
     swaths_append_lines w_nonpos w_zero wkt l lines w ty = Throw InvalidArgument) /\
  (w_nonpos w = false ->
     exists n, swaths_append_lines w_nonpos w_zero wkt l lines w ty = Ok (l ++ n) /\
       length n = length lines /\
       forall i line, nth_error lines i = Some line ->
         nth_error n i = Some (mkSwath P W (Z.of_nat (length l + i)) (map wkt line) w true ty)).
Proof.
  intros P W wn wz wkt ty w lines l. split.
  - intros. apply append_lines_bad; auto.
  - intro Hw. eexists. split; [apply append_lines_spec; auto|]. split.
    + rewrite map_length, combine_length, seq_length. lia.
    + intros i line Hi.
      assert (H : nth_error (combine (seq (length l) (length lines)) lines) i
                  = Some (length l + i, line)).
      { clear Hw. revert i Hi. generalize (length l). induction lines; intros k [|i] Hi;
          simpl in *; try discriminate.
        - injection Hi as ->. rewrite Nat.add_0_r. auto.
        - rewrite IHlines by auto. rewrite Nat.add_succ_r. auto. }
      apply (map_nth_error (fun p => mkSwath P W (Z.of_nat (fst p)) (map wkt (snd p)) w true ty)) in H.
      exact H.
Qed.
Print Assumptions append_lines_ids.

Example append_lines_ids_ex :
  swaths_append_lines zw_nonpos 0%Z (fun p => p) (zline 2)
     [[(0,2); (10,2)]; [(0,3); (10,3)]]%Z 1%Z MAINLAND = Ok (zline 4).
Proof. reflexivity. Qed.

(** C14 *)
Theorem global_index_is_flatten_index :
  forall (P W : Type) (d : list (list (swath P W))) i,
  sbc_getSwath d i = match nth_error (sbc_flatten d) i with
                     | Some s => Ok s | None => Throw OutOfRange end.
Proof. intros. rewrite sbc_flatten_concat. apply sbc_getSwath_spec. Qed.
Print Assumptions global_index_is_flatten_index.

Theorem flatten_is_concatenation :
  forall (P W : Type) (d : list (list (swath P W))), sbc_flatten d = concat d.
Proof. exact @sbc_flatten_concat. Qed.
Print Assumptions flatten_is_concatenation.

Theorem sizeTotal_is_flatten_size :
  forall (P W : Type) (d : list (list (swath P W))),
  (Z.of_nat (length (sbc_flatten d)) < 2147483648)%Z ->
  sbc_sizeTotal d = Z.of_nat (length (sbc_flatten d)).
Proof. intros P W d. rewrite sbc_flatten_concat. apply sbc_sizeTotal_spec. Qed.
Print Assumptions sizeTotal_is_flatten_size.
Example sizeTotal_ex : sbc_sizeTotal [[zsw 1 (0, 1)%Z (10, 1)%Z true]; []; [zsw 1 (0, 1)%Z (10, 1)%Z true; zsw 1 (0, 1)%Z (10, 1)%Z true]] = 3%Z.
Proof. rewrite sizeTotal_is_flatten_size; [reflexivity|]. vm_compute. reflexivity. Qed.

(** Beyond 2^31 swaths the 32-bit accumulator wraps round and the sign is extended. *)
Theorem sizeTotal_wraps :
  forall (P W : Type) (d : list (list (swath P W))),
  let n := Z.of_nat (length (concat d)) in
  sbc_sizeTotal d = (((n + 2 ^ 31) mod 2 ^ 32 - 2 ^ 31) mod 2 ^ 64)%Z.
Proof.
  intros P W d n.
  assert (M : forall x, (to_int32 (to_size x) = to_int32 x)%Z).
  { intro x. unfold to_int32, to_size. f_equal.
    rewrite <- (Zplus_mod_idemp_l (x mod 18446744073709551616)).
    rewrite <- (Znumtheory.Zmod_div_mod 4294967296 18446744073709551616 x); [|lia|lia|exists 4294967296%Z; reflexivity].
    apply Zplus_mod_idemp_l. }
  assert (Q : forall x y, (to_int32 (to_int32 x + y) = to_int32 (x + y))%Z).
  { intros x y. unfold to_int32. f_equal. replace ((x + 2147483648) mod 4294967296 - 2147483648 + y + 2147483648)%Z with ((x + 2147483648) mod 4294967296 + y)%Z by lia.
    rewrite Zplus_mod_idemp_l. f_equal. lia. }
  assert (H : forall l acc, fold_left (fun acc c => to_int32 (to_size (to_size acc + Z.of_nat (length c))))%Z l (to_int32 acc)
     = to_int32 (acc + Z.of_nat (length (concat (l : list (list (swath P W))))))%Z).
  { induction l as [|c l IH]; intro acc; cbn [fold_left concat]; [rewrite Z.add_0_r; reflexivity|].
    assert (E : (to_int32 (to_size (to_size (to_int32 acc) + Z.of_nat (length c))) = to_int32 (acc + Z.of_nat (length c)))%Z).
    { rewrite M. unfold to_size. rewrite <- (M (_ + _)%Z). unfold to_size. rewrite Zplus_mod_idemp_l. fold (to_size (to_int32 acc + Z.of_nat (length c))%Z). rewrite M. apply Q. }
    rewrite E, IH, app_length, Nat2Z.inj_add. f_equal. lia. }
  unfold sbc_sizeTotal. change 0%Z with (to_int32 0) at 1. rewrite H, Z.add_0_l. reflexivity.
Qed.
Print Assumptions sizeTotal_wraps.

Example sizeTotal_wraps_ex : forall s : swath zpt Z,
  sbc_sizeTotal [repeat s (Z.to_nat 2147483647); [s]] = 18446744071562067968%Z.
Proof.
  intro s. rewrite sizeTotal_wraps. cbn [concat]. rewrite !app_length, repeat_length, !Nat2Z.inj_add, Z2Nat.id by lia. reflexivity.
Qed.

Example global_index_ex :
  let d := [[]; zline 2; []; zline 3] in
  map sw_id (sbc_flatten d) = [0; 1; 0; 1; 2]%Z /\
  sbc_getSwath d 3 = Ok (zsw 1 (0, 1)%Z (10, 1)%Z true) /\
  sbc_getSwath d 5 = Throw OutOfRange /\ sbc_sizeTotal d = 5%Z.
Proof. repeat split; vm_compute; reflexivity. Qed.

(** C11: what equality compares. *)
Theorem swath_eq_meaning :
  forall (P W : Type) (p_default : P) (w_neq : W -> W -> bool)
    (p_neq_xy : P -> P -> bool) (path_length : list P -> W) (s t : swath P W) a b,
  hd_error (sw_path s) = Some a -> hd_error (sw_path t) = Some b ->
  (swath_eq p_default w_neq p_neq_xy path_length s t = true <->
   w_neq (sw_width s) (sw_width t) = false /\
   p_neq_xy b (if Bool.eqb (sw_dir s) (sw_dir t) then a else last (sw_path s) a) = false /\
   w_neq (path_length (sw_path s)) (path_length (sw_path t)) = false).
Proof.
  intros P W pd wn pn len s t a b Ha Hb. unfold swath_eq, swath_neq, swath_hasSameDir.
  destruct (sw_path s) as [|a' ps] eqn:Es; [discriminate|]. injection Ha as ->.
  destruct (sw_path t) as [|b' qs] eqn:Et; [discriminate|]. injection Hb as ->.
  assert (E : swath_endPoint pd s = last (a :: ps) a).
  { unfold swath_endPoint. rewrite Es. destruct (exists_last (l := a :: ps)) as (l & x & ->); [discriminate|].
    rewrite rev_app_distr, last_last. reflexivity. }
  unfold swath_startPoint. rewrite E, Es, Et.
  replace (Bool.eqb (sw_dir t) (sw_dir s)) with (Bool.eqb (sw_dir s) (sw_dir t)) by (destruct (sw_dir s), (sw_dir t); reflexivity).
  destruct (wn (sw_width s) (sw_width t)); [split; [discriminate|intros (H & _); discriminate]|].
  rewrite negb_true_iff, orb_false_iff. split; [intros [H1 H2]; auto|intros (_ & H1 & H2); auto].
Qed.
Print Assumptions swath_eq_meaning.

(** The widths agree, the drawings start at the same point and are as long. *)
Example swath_eq_meaning_ex : zs_eq (zsw 1 (0, 1)%Z (10, 1)%Z true) (zsw 2 (0, 1)%Z (0, 11)%Z true) = true.
Proof. apply (swath_eq_meaning zpt Z (0, 0)%Z zneq zneq_xy zlen _ _ (0, 1)%Z (0, 1)%Z); try reflexivity. repeat split. Qed.

(** C120: constructors and setters. *)
Theorem swath_constructors :
  forall (P W : Type) (w_nonpos : W -> bool) (w_zero w : W) (path : list P) id ty,
  let is (s : swath P W) i p v d k := sw_id s = i /\ sw_path s = p /\ sw_width s = v /\ sw_dir s = d /\ sw_type s = k in
  is (swath_default w_zero) 0%Z [] w_zero true MAINLAND /\
  is (swath_of_path w_zero path) 0%Z path w_zero true MAINLAND /\
  (w_nonpos w = true -> swath_of_width w_nonpos w_zero w = Throw InvalidArgument (A := swath P W) /\
     swath_new w_nonpos w_zero path w id ty = Throw InvalidArgument) /\
  (w_nonpos w = false -> (exists s, swath_of_width w_nonpos w_zero w = Ok s /\ is s 0%Z [] w true MAINLAND) /\
     (exists s, swath_new w_nonpos w_zero path w id ty = Ok s /\ is s id path w true ty)) /\
  (forall s : swath P W, is (swath_setId s id) id (sw_path s) (sw_width s) (sw_dir s) (sw_type s) /\
     is (swath_setPath s path) (sw_id s) path (sw_width s) (sw_dir s) (sw_type s) /\
     (forall d, is (swath_setCreationDir s d) (sw_id s) (sw_path s) (sw_width s) d (sw_type s)) /\
     is (swath_setType s ty) (sw_id s) (sw_path s) (sw_width s) (sw_dir s) ty /\
     is (swath_reverse s) (sw_id s) (rev (sw_path s)) (sw_width s) (negb (sw_dir s)) (sw_type s) /\
     (w_nonpos w = false -> exists s', swath_setWidth w_nonpos s w = Ok s' /\ is s' (sw_id s) (sw_path s) w (sw_dir s) (sw_type s))).
Proof.
  intros P W np wz w path id ty is. unfold is, swath_of_width, swath_new, swath_setWidth.
  split; [repeat split|]. split; [repeat split|]. split; [intros ->; split; reflexivity|].
  split; [intros ->; split; eexists; split; [reflexivity| |reflexivity|]; repeat split|].
  intro s. split; [repeat split|]. split; [repeat split|]. split; [intro d; repeat split|]. split; [repeat split|]. split; [repeat split|].
  intros ->. eexists. split; [reflexivity|]. repeat split.
Qed.
Print Assumptions swath_constructors.

Example swath_constructors_ex : exists s, swath_new (fun w => (w <=? 0)%Z) 0%Z [(0, 0)%Z; (4, 0)%Z] 3%Z 7%Z HEADLAND = Ok s /\ sw_width s = 3%Z /\ sw_id s = 7%Z.
Proof.
  destruct (swath_constructors (Z * Z) Z (fun w => (w <=? 0)%Z) 0%Z 3%Z [(0, 0)%Z; (4, 0)%Z] 7%Z HEADLAND) as (_ & _ & _ & H & _).
  destruct H as [_ (s & E & A & _ & B & _)]; [reflexivity|]. exists s. auto.
Qed.
