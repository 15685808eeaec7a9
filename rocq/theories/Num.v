(** Number types.  C++ [double] expressions are modelled over a record of
    operations, instantiated with exact reals and with IEEE binary64.  *)
From Coq Require Import Reals ZArith Floats Uint63.

(** The operations on [double] used by /repo code (e.g.
    src/fields2cover/types/Path.cpp:305-322, src/fields2cover/utils/spline.cpp:115-145). *)
Record Num : Type := {
  carrier :> Type;
  nofZ : Z -> carrier;
  nadd : carrier -> carrier -> carrier;
  nsub : carrier -> carrier -> carrier;
  nmul : carrier -> carrier -> carrier;
  ndiv : carrier -> carrier -> carrier;
  nopp : carrier -> carrier;
  nabs : carrier -> carrier;
  nsqrt : carrier -> carrier;
  nltb : carrier -> carrier -> bool;
  nleb : carrier -> carrier -> bool;
  neqb : carrier -> carrier -> bool
}.

(** [x < y] on reals (e.g. src/fields2cover/types/Point.cpp:52-55). *)
Definition Rltb (x y : R) : bool := if Rlt_dec x y then true else false.
(** [x <= y] on reals (e.g. src/fields2cover/utils/random.cpp:48). *)
Definition Rleb (x y : R) : bool := if Rle_dec x y then true else false.
(** [x == y] on reals (e.g. src/fields2cover/types/Path.cpp:353). *)
Definition Reqb (x y : R) : bool := if Req_EM_T x y then true else false.

(** Exact real arithmetic: the idealisation of double (e.g. of src/fields2cover/types/Path.cpp:305-322)
    used by the positive theorems. *)
Definition RNum : Num := {|
  carrier := R;
  nofZ := IZR;
  nadd := Rplus; nsub := Rminus; nmul := Rmult; ndiv := Rdiv;
  nopp := Ropp; nabs := Rabs; nsqrt := R_sqrt.sqrt;
  nltb := Rltb; nleb := Rleb; neqb := Reqb
|}.

(** Integer to binary64 conversion for |z| < 2^62 (e.g. the literals of
    src/fields2cover/types/Path.cpp:309-311). *)
Definition float_of_Z (z : Z) : float :=
  match z with
  | Z0 => 0%float
  | Zpos _ => PrimFloat.of_uint63 (Uint63.of_Z z)
  | Zneg p => PrimFloat.opp (PrimFloat.of_uint63 (Uint63.of_Z (Zpos p)))
  end.

(** IEEE 754 binary64, round to nearest even: what the compiled code uses (e.g. in
    src/fields2cover/types/Path.cpp:305-322). *)
Definition FNum : Num := {|
  carrier := float;
  nofZ := float_of_Z;
  nadd := PrimFloat.add; nsub := PrimFloat.sub; nmul := PrimFloat.mul;
  ndiv := PrimFloat.div; nopp := PrimFloat.opp; nabs := PrimFloat.abs;
  nsqrt := PrimFloat.sqrt;
  nltb := PrimFloat.ltb; nleb := PrimFloat.leb; neqb := PrimFloat.eqb
|}.

Lemma Rltb_true : forall x y, Rltb x y = true <-> (x < y)%R.
Proof. intros; unfold Rltb; destruct (Rlt_dec x y); split; intros; auto; discriminate. Qed.
Lemma Rltb_false : forall x y, Rltb x y = false <-> (y <= x)%R.
Proof.
  intros; unfold Rltb; destruct (Rlt_dec x y); split; intros; auto; try discriminate.
  - exfalso; apply (Rlt_not_le y x); auto.
  - apply Rnot_lt_le; auto.
Qed.
Lemma Rleb_true : forall x y, Rleb x y = true <-> (x <= y)%R.
Proof. intros; unfold Rleb; destruct (Rle_dec x y); split; intros; auto; discriminate. Qed.
Lemma Rleb_false : forall x y, Rleb x y = false <-> (y < x)%R.
Proof.
  intros; unfold Rleb; destruct (Rle_dec x y); split; intros; auto; try discriminate.
  - exfalso; apply (Rle_not_lt y x); auto.
  - apply Rnot_le_lt; auto.
Qed.
Lemma Reqb_true : forall x y, Reqb x y = true <-> x = y.
Proof. intros; unfold Reqb; destruct (Req_EM_T x y); split; intros; auto; discriminate. Qed.
Lemma Reqb_false : forall x y, Reqb x y = false <-> x <> y.
Proof. intros; unfold Reqb; destruct (Req_EM_T x y); split; intros; auto; try discriminate; contradiction. Qed.
