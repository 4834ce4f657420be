(** What is assumed of the rounded operations of FloatModel, and the exact reference values. *)
From Coq Require Import List ZArith QArith Qreals Reals.
From Flocq Require Import Core.
From Verif Require Import Py Mat3 MatQ GroupModel FloatModel.
Open Scope R_scope.

(** Exact and absolute inner product. *)
Definition rdot (a b : rvec) : R := x1 a * x1 b + x2 a * x2 b + x3 a * x3 b.
Definition adot (a b : rvec) : R := Rabs (x1 a * x1 b) + Rabs (x2 a * x2 b) + Rabs (x3 a * x3 b).

(** One operation has relative error u and absolute error eta (underflow); a product of three
    terms is at most four times as inaccurate, relative to the sum of absolute values. *)
Record arith_ok (u eta : R) (A : arith) : Prop := {
  ok_u : 0 <= u <= / 4;
  ok_eta : 0 <= eta;
  ok_fl : forall x, Rabs (fl A x - x) <= u * Rabs x + eta;
  ok_dot : forall a b, Rabs (dot3 A a b - rdot a b) <= 4 * u * adot a b + 8 * eta }.

(** Componentwise distance and size. *)
Definition vnear (d : R) (u v : rvec) : Prop :=
  Rabs (x1 u - x1 v) <= d /\ Rabs (x2 u - x2 v) <= d /\ Rabs (x3 u - x3 v) <= d.
Definition vsmall (b : R) (v : rvec) : Prop :=
  Rabs (x1 v) <= b /\ Rabs (x2 v) <= b /\ Rabs (x3 v) <= b.

(** Real value of a rational vector. *)
Definition vR (v : vec) : rvec := RVec (Q2R (v1 v)) (Q2R (v2 v)) (Q2R (v3 v)).

(** All entries of an integer matrix lie between -c and c. *)
Definition entries_le (c : Z) (m : mat) : Prop :=
  (Z.abs (m11 m) <= c /\ Z.abs (m12 m) <= c /\ Z.abs (m13 m) <= c /\
   Z.abs (m21 m) <= c /\ Z.abs (m22 m) <= c /\ Z.abs (m23 m) <= c /\
   Z.abs (m31 m) <= c /\ Z.abs (m32 m) <= c /\ Z.abs (m33 m) <= c)%Z.

(** Real value of a rational matrix; distance and size of matrices. *)
Definition mR (m : qmat) : rmat :=
  RMat (RVec (Q2R (q11 m)) (Q2R (q12 m)) (Q2R (q13 m)))
       (RVec (Q2R (q21 m)) (Q2R (q22 m)) (Q2R (q23 m)))
       (RVec (Q2R (q31 m)) (Q2R (q32 m)) (Q2R (q33 m))).
Definition mnear (d : R) (a b : rmat) : Prop :=
  vnear d (row1 a) (row1 b) /\ vnear d (row2 a) (row2 b) /\ vnear d (row3 a) (row3 b).
Definition msmall (b : R) (m : rmat) : Prop :=
  vsmall b (row1 m) /\ vsmall b (row2 m) /\ vsmall b (row3 m).

(** IEEE 754 binary64, rounding to nearest even, without overflow. *)
Definition b64 (x : R) : R := round radix2 (FLT_exp (-1074) 53) ZnearestE x.
Definition b64_u : R := / 9007199254740992.       (* 2^-53 *)
Definition b64_eta : R := bpow radix2 (-1075).
(** Three ways in which a BLAS library may compute the product of a row and a column: from the
    left, from the right, and with fused multiply-add. *)
Definition dot_left (a b : rvec) : R :=
  b64 (b64 (b64 (x1 a * x1 b) + b64 (x2 a * x2 b)) + b64 (x3 a * x3 b)).
Definition dot_right (a b : rvec) : R :=
  b64 (b64 (x1 a * x1 b) + b64 (b64 (x2 a * x2 b) + b64 (x3 a * x3 b))).
Definition dot_fma (a b : rvec) : R :=
  b64 (x3 a * x3 b + b64 (x2 a * x2 b + b64 (x1 a * x1 b))).
