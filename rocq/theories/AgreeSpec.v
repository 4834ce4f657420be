(** Vocabulary for comparing the results of two calls of enumerate_small_representations. *)
From Coq Require Import QArith ZArith List String.
From mathcomp Require Import all_ssreflect all_algebra.
From Verif Require Import Py Mat3 GroupSpec RepModel RepSpec IndexRepSpec ChainModel SmallModel SmallSpec.
Import Order.TTheory GRing.Theory Num.Theory.
Set Implicit Arguments.
Unset Strict Implicit.
Unset Printing Implicit Defensive.
Local Open Scope ring_scope.

(** The call is made on a little group (with the assumptions of C27) and returns the list L. *)
Record returns_irreps (C : numClosedFieldType) (E : numpy C) (rots : list mat) (trans : list vec) (k : vec)
    (mul : nat -> nat -> nat) (e : nat) (method : string) (rtol atol : Q) (max_num : nat) (L : seq (arr C)) : Prop := {
  ri_numpy : numpy_ok E rtol atol;
  ri_atol : Qle atol (Qmake 1 3);
  ri_group : lists_space_group rots trans;
  ri_fixes : forall r, List.In r rots -> fixes_kpoint k r;
  ri_mult : multiplication rots mul e;
  ri_unit : veq (List.nth e trans vzero) vzero;
  ri_method : method_ok E rots method;
  ri_result : exists inds, enumerate_small_representations E rots trans k false method rtol atol max_num = COk (L, inds, true) }.

(** Every representation of L, transformed by T, is equivalent to one of L', different ones
    to different ones, and every one of L' is reached. *)
Definition same_irreps (C : numClosedFieldType) (n : nat) (T : forall d, (nat -> 'M[C]_d) -> nat -> 'M[C]_d)
    (L L' : seq (arr C)) : Prop :=
  exists s : nat -> nat, [/\
    forall k, (k < size L)%N -> (s k < size L')%N /\ adim (arr_nth L k) = adim (arr_nth L' (s k)),
    forall k, (k < size L)%N -> iequivalent n (T _ (aget (arr_nth L k))) (aget (arr_nth L' (s k))),
    forall k l, (k < size L)%N -> (l < size L)%N -> s k = s l -> k = l &
    forall l, (l < size L')%N -> exists2 k, (k < size L)%N & s k = l].
(** The same up to the tolerance with which the matrices are returned. *)
Definition agree (C : numClosedFieldType) (n : nat) (T : forall d, (nat -> 'M[C]_d) -> nat -> 'M[C]_d) (eps eps' : C)
    (L L' : seq (arr C)) : Prop :=
  exists L1 L1', [/\ near_list eps L L1, near_list eps' L' L1' & same_irreps n T L1 L1'].
