(** Representations of a group given by a multiplication [mul] on the indices 0..n-1:
    a representation is a family of matrices D(0), ..., D(n-1).  Written without any
    reference to the model functions. *)
From mathcomp Require Import all_ssreflect all_algebra.
From Verif Require Import RepSpec.
Import Order.TTheory GRing.Theory Num.Theory.
Set Implicit Arguments.
Unset Strict Implicit.
Unset Printing Implicit Defensive.
Local Open Scope ring_scope.

Section Spec.
Variables (C : numClosedFieldType) (n : nat) (mul : nat -> nat -> nat) (e : nat).
Variable mu : nat -> nat -> C.

(** mu is a unitary 2-cocycle with mu(e,e) = 1. *)
Record ifactor_system : Prop := IFactorSystem {
  ifs_cocycle : forall i j k, (i < n)%N -> (j < n)%N -> (k < n)%N ->
     mu i (mul j k) * mu j k = mu (mul i j) k * mu i j;
  ifs_norm : forall i j, (i < n)%N -> (j < n)%N -> `|mu i j| = 1;
  ifs_one : mu e e = 1 }.

Definition iprojrep d (D : nat -> 'M[C]_d) : Prop :=
  D e = 1%:M /\ forall i j, (i < n)%N -> (j < n)%N -> D i *m D j = mu i j *: D (mul i j).
Definition iunitary d (D : nat -> 'M[C]_d) : Prop :=
  forall i, (i < n)%N -> D i *m adj (D i) = 1%:M.
Definition iirreducible d (D : nat -> 'M[C]_d) : Prop :=
  (0 < d)%N /\ forall m (W : 'M[C]_(d, m)),
    (forall i, (i < n)%N -> exists Y, D i *m W = W *m Y) -> W = 0 \/ exists V, W *m V = 1%:M.
Definition iequivalent d1 d2 (D1 : nat -> 'M[C]_d1) (D2 : nat -> 'M[C]_d2) : Prop :=
  exists T : 'M[C]_(d1, d2), exists T' : 'M[C]_(d2, d1),
    [/\ T *m T' = 1%:M, T' *m T = 1%:M & forall i, (i < n)%N -> D1 i *m T = T *m D2 i].
(** Inner product of characters. *)
Definition icip d1 d2 (D1 : nat -> 'M[C]_d1) (D2 : nat -> 'M[C]_d2) : C :=
  \sum_(i < n) (\tr (D1 i))^* * \tr (D2 i).

(** D 0, ..., D (N-1) is a full list of the irreducible representations with factor system
    mu, up to equivalence, each being unitary: the documented result of
    enumerate_unitary_irreps. *)
Record complete_irreps (N : nat) (dim : nat -> nat) (D : forall k, nat -> 'M[C]_(dim k)) : Prop := {
  ci_rep : forall k, (k < N)%N -> iprojrep (D k);
  ci_unitary : forall k, (k < N)%N -> iunitary (D k);
  ci_irreducible : forall k, (k < N)%N -> iirreducible (D k);
  ci_inequivalent : forall k l, (k < N)%N -> (l < N)%N -> k <> l -> ~ iequivalent (D k) (D l);
  ci_orthogonal : forall k l, (k < N)%N -> (l < N)%N -> icip (D k) (D l) = if k == l then n%:R else 0;
  ci_complete : forall d (F : nat -> 'M[C]_d), iprojrep F -> iirreducible F ->
     exists k, [/\ (k < N)%N, iequivalent (D k) F &
       forall l, (l < N)%N -> iequivalent (D l) F -> l = k];
  ci_squares : (\sum_(k < N) dim k ^ 2 = n)%N }.
End Spec.
