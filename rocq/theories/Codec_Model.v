(** Model of the text format of paths: Path::serializePath, saveToFile and loadFile
    (src/fields2cover/types/Path.cpp:274-298, 324-344), byte by byte, over the
    bit-level doubles of the standard library of Coq.  Files are texts: opening,
    writing and reading a file always works. *)
From Coq Require Import Ascii String ZArith Bool Arith Floats SpecFloat List.
From Verif Require Import Outcome Num Point_Model Path_Model Text_Model.
Import ListNotations.
Local Open Scope Z_scope.

(** ** Printing: operator<< of a double (src/fields2cover/types/Path.cpp:278), which is %.*g *)

(** [a / b] rounded to the nearest integer, ties to even: the rounding of operator<<
    (src/fields2cover/types/Path.cpp:278) and operator>> (src/fields2cover/types/Path.cpp:333). *)
Definition rhe (a b : Z) : Z :=
  let q := a / b in
  let r := a mod b in
  if (2 * r <? b) || ((2 * r =? b) && Z.even q) then q else q + 1.

(** Floor of the decimal logarithm of [q] >= 1 (for src/fields2cover/types/Path.cpp:278). *)
Fixpoint log10 (fuel : nat) (q : Z) : Z :=
  match fuel with
  | O => 0
  | S fuel => if q <? 10 then 0 else 1 + log10 fuel (q / 10)
  end.
(** The same with enough fuel (for src/fields2cover/types/Path.cpp:278). *)
Definition Zlog10 (q : Z) : Z := log10 (Z.to_nat (Z.log2 q)) q.

(** Floor of the decimal logarithm of [num / den] (for src/fields2cover/types/Path.cpp:278). *)
Definition log10q (num den : Z) : Z :=
  if den <=? num then Zlog10 (num / den) else - (1 + Zlog10 ((den - 1) / num)).

(** [num / den * b ^ k] as a fraction (for src/fields2cover/types/Path.cpp:278,333). *)
Definition scale (num den b k : Z) : Z * Z :=
  if 0 <=? k then (num * b ^ k, den) else (num, den * b ^ (- k)).

(** The [P] significant digits of [num / den] as an integer, and the exponent of the
    first one (%e of src/fields2cover/types/Path.cpp:276-278). *)
Definition sig_digits (P : nat) (num den : Z) : Z * Z :=
  let p := Z.of_nat P in
  let x := log10q num den in
  let (a, b) := scale num den 10 (p - 1 - x) in
  let d := rhe a b in
  if d =? 10 ^ p then (10 ^ (p - 1), x + 1) else (d, x).

(** Exactly [n] decimal digits of [d] (for src/fields2cover/types/Path.cpp:278). *)
Fixpoint digits_n (n : nat) (d : Z) : text :=
  match n with
  | O => []
  | S n => digits_n n (d / 10) ++ [digit (d mod 10)]
  end.

(** %g drops the zeros at the end of the fraction (src/fields2cover/types/Path.cpp:278). *)
Fixpoint strip0 (s : text) : text :=
  match s with
  | [] => []
  | c :: s => match strip0 s with [] => if Ascii.eqb c "0" then [] else [c] | t => c :: t end
  end.
(** The point is dropped when no fraction is left (src/fields2cover/types/Path.cpp:278). *)
Definition with_point (i f : text) : text := match f with [] => i | _ => i ++ "."%char :: f end.

(** The exponent of scientific notation: a sign and at least two digits
    (src/fields2cover/types/Path.cpp:278). *)
Definition exp_text (x : Z) : text :=
  (if x <? 0 then txt "e-" else txt "e+") ++
  (if Z.abs x <? 10 then digits_n 2 (Z.abs x) else dec (Z.to_nat (Z.log2 (Z.abs x))) (Z.abs x)).

(** %g of a positive number: fixed notation for exponents from -4 to below [P],
    scientific notation otherwise (src/fields2cover/types/Path.cpp:276-278). *)
Definition g_positive (P : nat) (num den : Z) : text :=
  let (d, x) := sig_digits P num den in
  let ds := digits_n P d in
  if (-4 <=? x) && (x <? Z.of_nat P) then
    if 0 <=? x then with_point (firstn (Z.to_nat (x + 1)) ds) (strip0 (skipn (Z.to_nat (x + 1)) ds))
    else with_point (txt "0") (strip0 (repeat "0"%char (Z.to_nat (- x - 1)) ++ ds))
  else with_point (firstn 1 ds) (strip0 (skipn 1 ds)) ++ exp_text x.

(** A finite double as a fraction (for src/fields2cover/types/Path.cpp:278). *)
Definition sf_frac (m : positive) (e : Z) : Z * Z := scale (Zpos m) 1 2 e.

(** to_string (src/fields2cover/types/Path.cpp:274-280); precision 0 counts as 1.  The sign of NaN is left
    out. *)
Definition g_text (precision : nat) (v : spec_float) : text :=
  let sign (s : bool) := if s then txt "-" else [] in
  match v with
  | S754_zero s => sign s ++ txt "0"
  | S754_infinity s => sign s ++ txt "inf"
  | S754_nan => txt "nan"
  | S754_finite s m e => let (num, den) := sf_frac m e in sign s ++ g_positive (Nat.max 1 precision) num den
  end.

(** ** Reading: operator>> into a double (src/fields2cover/types/Path.cpp:333) *)

(** Floor of the binary logarithm of [num / den] (for src/fields2cover/types/Path.cpp:333). *)
Definition log2q (num den : Z) : Z :=
  if den <=? num then Z.log2 (num / den) else - (1 + Z.log2 ((den - 1) / num)).

(** The double nearest to [num / den], ties to even (strtod, for
    src/fields2cover/types/Path.cpp:333); None on overflow. *)
Definition round_sf (s : bool) (num den : Z) : option spec_float :=
  let e := Z.max (log2q num den - 52) (-1074) in
  let (a, b) := scale num den 2 (- e) in
  let q := rhe a b in
  if q =? 0 then Some (S754_zero s)
  else
    let (m, e) := if q =? 2 ^ 53 then (2 ^ 52, e + 1) else (q, e) in
    if 971 <? e then None else Some (S754_finite s (Z.to_pos m) e).

(** The digits at the start of a text (for src/fields2cover/types/Path.cpp:333). *)
Fixpoint span_digits (s : text) : text * text :=
  match s with
  | c :: s' => if is_digit c then (c :: fst (span_digits s'), snd (span_digits s')) else ([], s)
  | [] => ([], [])
  end.
(** An optional sign (for src/fields2cover/types/Path.cpp:333). *)
Definition span_sign (s : text) : bool * text :=
  match s with
  | c :: s' => if Ascii.eqb c "-" then (true, s') else if Ascii.eqb c "+" then (false, s') else (false, s)
  | [] => (false, [])
  end.
(** An optional fraction (for src/fields2cover/types/Path.cpp:333). *)
Definition span_frac (s : text) : text * text :=
  match s with
  | c :: s' => if Ascii.eqb c "." then span_digits s' else ([], s)
  | [] => ([], [])
  end.
(** An optional exponent; None when its digits are missing (for src/fields2cover/types/Path.cpp:333). *)
Definition span_exp (s : text) : option (Z * text) :=
  match s with
  | c :: s' =>
    if Ascii.eqb c "e" || Ascii.eqb c "E" then
      let (neg, s1) := span_sign s' in
      let (ds, s2) := span_digits s1 in
      match ds with
      | [] => None
      | _ => Some (if neg then - read_digits 0 ds else read_digits 0 ds, s2)
      end
    else Some (0, s)
  | [] => Some (0, [])
  end.

(** operator>> (num_get of libstdc++ in the classic locale, then strtod;
    src/fields2cover/types/Path.cpp:333): white space is skipped, the longest number is taken; None when the stream fails. *)
Definition read_double (s : text) : option (spec_float * text) :=
  let (neg, s) := span_sign (skip_spaces s) in
  let (i, s) := span_digits s in
  let (f, s) := span_frac s in
  match i ++ f with
  | [] => None
  | _ =>
    match span_exp s with
    | None => None
    | Some (x, s) =>
      let n := read_digits 0 (i ++ f) in
      if n =? 0 then Some (S754_zero neg, s)
      else
        let (num, den) := scale n 1 10 (x - Z.of_nat (length f)) in
        match round_sf neg num den with
        | Some v => Some (v, s)
        | None => None
        end
    end
  end.

(** ** Paths *)

(** static_cast<int> of an enumerator converted to double
    (src/fields2cover/types/Path.cpp:294-295); ints are exact in double. *)
Definition sf_of_int (z : Z) : spec_float :=
  if z =? 0 then S754_zero false
  else match round_sf (z <? 0) (Z.abs z) 1 with Some v => v | None => S754_nan end.

(** static_cast of a double to an enumeration (src/fields2cover/types/Path.cpp:339-340): cut
    towards zero, undefined when the value does not fit an int. *)
Definition enum_of_sf (v : spec_float) : outcome Z :=
  match v with
  | S754_zero _ => Ok 0
  | S754_finite s m e =>
    let (num, den) := sf_frac m e in
    let t := if s then - (num / den) else num / den in
    if (- 2 ^ 31 <=? t) && (t <? 2 ^ 31) then Ok t else UB
  | _ => UB
  end.

Notation fstate := (pstate FNum).

(** The text of a double member (src/fields2cover/types/Path.cpp:288-293). *)
Definition f_text (precision : nat) (x : float) : text := g_text precision (Prim2SF x).

(** One line of serializePath (src/fields2cover/types/Path.cpp:288-295). *)
Definition state_text (precision : nat) (s : fstate) : text :=
  f_text precision (px (ps_point s)) ++ txt " " ++ f_text precision (py (ps_point s)) ++ txt " " ++
  f_text precision (pz (ps_point s)) ++ txt " " ++ f_text precision (ps_angle s) ++ txt " " ++
  f_text precision (ps_vel s) ++ txt " " ++ f_text precision (ps_len s) ++ txt " " ++
  g_text 6 (sf_of_int (ps_dir s)) ++ txt " " ++ g_text 6 (sf_of_int (ps_type s)) ++ ["010"%char].

(** Path::serializePath (src/fields2cover/types/Path.cpp:283-298), the contents of the file written by
    saveToFile (src/fields2cover/types/Path.cpp:324-328). *)
Definition serializePath (precision : nat) (p : list fstate) : text := concat (map (state_text precision) p).
(** The default precision (include/fields2cover/types/Path.h:84-85). *)
Definition default_precision : nat := 6.

(** in >> x >> y >> z >> ang >> vel >> len >> dir >> d_type
    (src/fields2cover/types/Path.cpp:333): the next [n] numbers. *)
Fixpoint read_doubles (n : nat) (s : text) : option (list spec_float * text) :=
  match n with
  | O => Some ([], s)
  | S n =>
    match read_double s with
    | None => None
    | Some (v, s) =>
      match read_doubles n s with
      | None => None
      | Some (l, s) => Some (v :: l, s)
      end
    end
  end.

(** The body of the loop of loadFile (src/fields2cover/types/Path.cpp:334-341). *)
Definition state_of (l : list spec_float) : outcome fstate :=
  match l with
  | [x; y; z; ang; vel; len; dir; d_type] =>
    do d <- enum_of_sf dir;
    do t <- enum_of_sf d_type;
    Ok (mkPS (N := FNum) (mkPoint (N := FNum) (SF2Prim x) (SF2Prim y) (SF2Prim z)) (SF2Prim ang) (SF2Prim len) d t (SF2Prim vel))
  | _ => UB
  end.

(** The loop of loadFile (src/fields2cover/types/Path.cpp:333-342) on the rest of the file. *)
Fixpoint load_loop (fuel : nat) (s : text) (p : list fstate) : outcome (list fstate) :=
  match read_doubles 8 s with
  | None => Ok p
  | Some (l, s) =>
    match fuel with
    | O => Hang
    | S fuel => do st <- state_of l; load_loop fuel s (p ++ [st])
    end
  end.

(** Path::loadFile (src/fields2cover/types/Path.cpp:330-344) into the path [p]. *)
Definition loadFile (s : text) (p : list fstate) : outcome (list fstate) := load_loop (length s) s p.
