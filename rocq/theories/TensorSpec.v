(** Specification vocabulary for tensors: a tensor of rank p+1 over C^m is a function of
    multi-indices x = (x_0, ..., x_p); [flat x] is the position of the entry x in the array
    (C order).  Apart from this layout nothing here refers to the model functions. *)
From mathcomp Require Import all_ssreflect all_algebra all_fingroup.
From Verif Require Import TensorModel.
Import Order.TTheory GRing.Theory Num.Theory.
Set Implicit Arguments.
Unset Strict Implicit.
Unset Printing Implicit Defensive.
Local Open Scope ring_scope.

Section Spec.
Variable C : numClosedFieldType.

Definition entry m p (T : 'rV[C]_(tdim m p)) (x : {ffun 'I_p.+1 -> 'I_m}) : C := T 0 (flat x).

(** The tensor is unchanged by R(g) for every g < n:
    sum_y R(g)_{x_0 y_0} ... R(g)_{x_p y_p} T_y = T_x. *)
Definition tensor_invariant (n m p : nat) (R : nat -> 'M[C]_m) (T : 'rV[C]_(tdim m p)) : Prop :=
  forall g, (g < n)%N -> forall x : {ffun 'I_p.+1 -> 'I_m},
    \sum_(y : {ffun 'I_p.+1 -> 'I_m}) (\prod_k R g (x k) (y k)) * entry T y = entry T x.

(** The tensor is unchanged by every permutation of its indices. *)
Definition tensor_symmetric (m p : nat) (T : 'rV[C]_(tdim m p)) : Prop :=
  forall (s : {perm 'I_p.+1}) (x : {ffun 'I_p.+1 -> 'I_m}), entry T [ffun j => x (s j)] = entry T x.

(** S is the sum of T over all permutations of its indices. *)
Definition is_symmetrisation m p (T S : 'rV[C]_(tdim m p)) : Prop :=
  forall x : {ffun 'I_p.+1 -> 'I_m}, entry S x = \sum_(s : {perm 'I_p.+1}) entry T [ffun j => x (s j)].

(** Linear independence of a list of vectors, and the vectors which are combinations. *)
Definition vectors_independent N (vs : seq 'rV[C]_N) : Prop :=
  forall c : nat -> C, \sum_(a < size vs) c a *: nth 0 vs a = 0 -> forall a, (a < size vs)%N -> c a = 0.
Definition combination N (vs : seq 'rV[C]_N) (v : 'rV[C]_N) : Prop :=
  exists c : nat -> C, v = \sum_(a < size vs) c a *: nth 0 vs a.
End Spec.
