(** Model of the text functions of the standard library that the code uses: a
    std::string is the list of its characters; characters are classified as in the
    "C" locale. *)
From Coq Require Import Ascii String ZArith Bool Arith List.
From Verif Require Import Outcome.
Import ListNotations.
Local Open Scope nat_scope.

Notation text := (list ascii).
(** A string literal of the source, e.g. src/fields2cover/types/Field.cpp:91. *)
Notation txt s := (list_ascii_of_string s).

(** The classes \d and [0-9] of src/fields2cover/types/Field.cpp:102,112. *)
Definition is_digit (c : ascii) : bool := (48 <=? nat_of_ascii c) && (nat_of_ascii c <=? 57).
(** [A-Za-z] of src/fields2cover/types/Field.cpp:102,112. *)
Definition is_alpha (c : ascii) : bool :=
  ((65 <=? nat_of_ascii c) && (nat_of_ascii c <=? 90)) || ((97 <=? nat_of_ascii c) && (nat_of_ascii c <=? 122)).
(** [0-9A-Za-z] of src/fields2cover/types/Field.cpp:102,112. *)
Definition is_alnum (c : ascii) : bool := is_digit c || is_alpha c.
(** The class \w of src/fields2cover/types/Field.cpp:102. *)
Definition is_word (c : ascii) : bool := is_alnum c || Ascii.eqb c "_".
(** std::isspace, as skipped by std::stoi (src/fields2cover/types/Field.cpp:136). *)
Definition is_space (c : ascii) : bool :=
  ((9 <=? nat_of_ascii c) && (nat_of_ascii c <=? 13)) || (nat_of_ascii c =? 32).

(** ** Searching *)

(** Whether [s] starts with [pat]; step of std::string::find (src/fields2cover/types/Field.cpp:91). *)
Fixpoint starts (pat s : text) : bool :=
  match pat, s with
  | [], _ => true
  | a :: pat, b :: s => Ascii.eqb a b && starts pat s
  | _ :: _, [] => false
  end.

(** std::string::find (src/fields2cover/types/Field.cpp:91,127, src/fields2cover/utils/parser.cpp:58);
    None is npos. *)
Fixpoint find_text (pat s : text) : option nat :=
  if starts pat s then Some 0
  else match s with [] => None | _ :: s => option_map S (find_text pat s) end.

(** std::string::find with a position (src/fields2cover/utils/parser.cpp:61). *)
Definition find_from (pat s : text) (pos : nat) : option nat :=
  if length s <? pos then None else option_map (Nat.add pos) (find_text pat (skipn pos s)).

(** std::string::substr (src/fields2cover/types/Field.cpp:136,165,173); [n] is None for npos. *)
Definition substr (s : text) (pos : nat) (n : option nat) : outcome text :=
  if length s <? pos then Throw OutOfRange
  else Ok (match n with None => skipn pos s | Some n => firstn n (skipn pos s) end).

(** std::string::replace (src/fields2cover/utils/parser.cpp:60). *)
Definition replace (s : text) (pos n : nat) (r : text) : outcome text :=
  if length s <? pos then Throw OutOfRange
  else Ok (firstn pos s ++ r ++ skipn (pos + n) s).

(** ** Regular expressions *)

(** An element of a regular expression: one character of a class, or any number of
    them, greedily; [true] for elements inside the capture group.  [\d+] is One then
    Many (src/fields2cover/types/Field.cpp:102,112). *)
Inductive item := One (g : bool) (p : ascii -> bool) | Many (g : bool) (p : ascii -> bool).

(** Adds a matched character to the capture group (src/fields2cover/types/Field.cpp:102-103,112-113). *)
Definition capture (g : bool) (c : ascii) (m : text) : text := if g then c :: m else m.

(** The backtracking search for a match at the start of [s], in the order of
    ECMAScript; the result is the text of group 1 (std::regex_search,
    src/fields2cover/types/Field.cpp:101,111). *)
Fixpoint match_here (r : list item) (s : text) : option text :=
  match r with
  | [] => Some []
  | One g p :: r =>
    match s with
    | c :: s => if p c then option_map (capture g c) (match_here r s) else None
    | [] => None
    end
  | Many g p :: r =>
    (fix many (s : text) : option text :=
      match s with
      | c :: s' =>
        if p c then
          match many s' with
          | Some m => Some (capture g c m)
          | None => match_here r s
          end
        else match_here r s
      | [] => match_here r s
      end) s
  end.

(** std::regex_search (src/fields2cover/types/Field.cpp:101,111): the first position with a match. *)
Fixpoint regex_search (r : list item) (s : text) : option text :=
  match match_here r s with
  | Some m => Some m
  | None => match s with [] => None | _ :: s => regex_search r s end
  end.

(** A word of the expression (src/fields2cover/types/Field.cpp:102,112). *)
Definition word (w : text) : list item := map (fun c => One false (Ascii.eqb c)) w.

(** ** Numbers *)

(** The character of a decimal digit (for src/fields2cover/types/Field.cpp:144). *)
Definition digit (d : Z) : ascii := ascii_of_nat (48 + Z.to_nat d).
(** The number of a digit character (for src/fields2cover/types/Field.cpp:136). *)
Definition undigit (c : ascii) : Z := Z.of_nat (nat_of_ascii c) - 48.

(** Decimal digits of [n] >= 0, at most [S fuel] of them (for src/fields2cover/types/Field.cpp:144). *)
Fixpoint dec (fuel : nat) (n : Z) : text :=
  match fuel with
  | 0 => [digit (n mod 10)]
  | S fuel => if (n <? 10)%Z then [digit n] else dec fuel (n / 10) ++ [digit (n mod 10)]
  end.

(** std::to_string of an integer (src/fields2cover/types/Field.cpp:144,
    src/fields2cover/utils/transformation.cpp:188). *)
Definition to_string (n : Z) : text :=
  let a := Z.abs n in
  (if (n <? 0)%Z then ["-"%char] else []) ++ dec (Z.to_nat (Z.log2 a)) a.

(** The digits at the start of [s] added to [acc]; strtol, called by std::stoi
    (src/fields2cover/types/Field.cpp:136). *)
Fixpoint read_digits (acc : Z) (s : text) : Z :=
  match s with
  | c :: s => if is_digit c then read_digits (10 * acc + undigit c) s else acc
  | [] => acc
  end.

(** [s] without leading white space (src/fields2cover/types/Field.cpp:136). *)
Fixpoint skip_spaces (s : text) : text :=
  match s with
  | c :: s' => if is_space c then skip_spaces s' else s
  | [] => []
  end.

(** std::stoi (src/fields2cover/types/Field.cpp:136): white space, a sign, digits; the rest is
    ignored. *)
Definition stoi (s : text) : outcome Z :=
  let s := skip_spaces s in
  let neg := match s with c :: _ => Ascii.eqb c "-" | [] => false end in
  let body := match s with c :: s' => if Ascii.eqb c "-" || Ascii.eqb c "+" then s' else s | [] => [] end in
  match body with
  | c :: _ =>
    if is_digit c then
      let a := read_digits 0 body in
      let n := if neg then (- a)%Z else a in
      if ((- 2 ^ 31 <=? n) && (n <? 2 ^ 31))%Z then Ok n else Throw OutOfRange
    else Throw InvalidArgument
  | [] => Throw InvalidArgument
  end.
