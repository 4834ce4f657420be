(** Specification vocabulary for the order of the returned irreps. *)
From mathcomp Require Import all_ssreflect all_algebra.
From Verif Require Import RepModel.
Import Order.TTheory GRing.Theory Num.Theory.
Set Implicit Arguments.
Unset Strict Implicit.
Unset Printing Implicit Defensive.
Local Open Scope ring_scope.

Section Spec.
Variable C : numClosedFieldType.
(** The identity representation of a group with m elements: m times the matrix (1). *)
Definition unit_arr (m : nat) : arr C := @Arr C 1 (nseq m 1%:M).
(** NumPy's order of complex numbers: by the real part, then by the imaginary part. *)
Definition numpy_le (a b : C) : bool := ('Re a < 'Re b) || (('Re a == 'Re b) && ('Im a <= 'Im b)).
(** The sum of the characters over the group. *)
Definition character_total (A : arr C) : C := \sum_(M <- amats A) \tr M.
(** The documented order "by (dim, minus of sum of characters)". *)
Definition listed_before (A B : arr C) : Prop :=
  (adim A < adim B)%N \/ adim A = adim B /\ numpy_le (- character_total A) (- character_total B).
End Spec.
