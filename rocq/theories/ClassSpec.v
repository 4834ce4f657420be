(** Conjugacy classes of the group given by a multiplication [mul] on the indices 0..n-1,
    and the elements that are regular for a factor system.  No model function occurs. *)
From Coq Require Import QArith ZArith List.
From mathcomp Require Import all_ssreflect all_algebra.
From Verif Require Import Mat3 MatQ SmallSpec.
Import Order.TTheory GRing.Theory Num.Theory.
Set Implicit Arguments.
Unset Strict Implicit.
Unset Printing Implicit Defensive.
Local Open Scope ring_scope.

Section Spec.
Variables (n : nat) (mul : nat -> nat -> nat).

(** j = x i x^-1 for some x. *)
Definition conjugates (i j : nat) : Prop := exists2 x, (x < n)%N & mul x i = mul j x.

(** The number of the elements that commute with i. *)
Definition centraliser_order (i : nat) : nat := count (fun x => eq_op (mul x i) (mul i x)) (iota 0 n).

(** [reps] has exactly one element of each conjugacy class of elements with property P. *)
Record class_representatives (P : nat -> Prop) (reps : seq nat) : Prop := {
  cr_in : forall i, i \in reps -> (i < n)%N /\ P i;
  cr_apart : forall a b, (a < size reps)%N -> (b < size reps)%N ->
    conjugates (nth 0%N reps a) (nth 0%N reps b) -> a = b;
  cr_cover : forall i, (i < n)%N -> P i -> exists2 j, j \in reps & conjugates i j }.

(** The factor system mu does not distinguish the two products of i with any element that
    commutes with it. *)
Definition mu_regular (C : numClosedFieldType) (mu : nat -> nat -> C) (i : nat) : Prop :=
  forall x, (x < n)%N -> mul x i = mul i x -> mu x i = mu i x.
End Spec.

(** The operation i of a little group and every operation commuting with it (as rotations)
    have products in the two orders that differ by a lattice translation t with k.t integral. *)
Definition kpoint_regular (rots : list mat) (trans : list vec) (k : vec) (mul : nat -> nat -> nat) (i : nat) : Prop :=
  forall x, (x < size rots)%N -> mul x i = mul i x ->
    exists z : Z, Qeq (vdot k (vsub (lattice_shift rots trans mul x i) (lattice_shift rots trans mul i x))) (inject_Z z).
