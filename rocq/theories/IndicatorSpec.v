(** Elements conjugate to their inverses, in the group given by a multiplication [mul] with
    unit [e] on the indices 0..n-1.  No model function occurs. *)
From mathcomp Require Import all_ssreflect all_algebra.
From Verif Require Import SmallSpec ClassSpec.
Set Implicit Arguments.
Unset Strict Implicit.
Unset Printing Implicit Defensive.

(** i is conjugate to its inverse. *)
Definition ambivalent (n : nat) (mul : nat -> nat -> nat) (e i : nat) : Prop :=
  exists2 j, (j < n)%N & mul i j = e /\ conjugates n mul i j.
