(** The contraction of a tensor with one matrix per axis, written without array operations. *)
From mathcomp Require Import all_ssreflect all_algebra.
Import GRing.Theory.
Set Implicit Arguments.
Unset Strict Implicit.
Unset Printing Implicit Defensive.
Local Open Scope ring_scope.

(** Sum of f over all indices (i_1, ..., i_p) with i_k < d_k. *)
Fixpoint sum_indices (R : ringType) (d : seq nat) (f : seq nat -> R) : R :=
  match d with
  | [::] => f [::]
  | n :: d' => \sum_(i < n) sum_indices d' (fun s => f (nat_of_ord i :: s))
  end.

(** i is an index of an array of shape d. *)
Definition in_shape (d i : seq nat) : bool := all2 (fun n k => (k < n)%N) d i.
