(** Representations over the real numbers. *)
From Coq Require Import QArith ZArith.
From mathcomp Require Import all_ssreflect all_algebra.
From Verif Require Import Mat3 MatQ RepSpec SpinorSpec.
Import Order.TTheory GRing.Theory Num.Theory.
Set Implicit Arguments.
Unset Strict Implicit.
Unset Printing Implicit Defensive.
Local Open Scope ring_scope.

Section Spec.
Variable C : numClosedFieldType.
(** The real matrices R 0, ..., R (n-1) leave no real subspace invariant but 0 and the whole
    space; a subspace is given by a matrix with linearly independent real columns. *)
Definition real_irreducible (n d : nat) (R : nat -> 'M[C]_d) : Prop :=
  (0 < d)%N /\ forall m (B : 'M[C]_(d, m)), real_mx B -> (exists V, V *m B = 1%:M) -> (0 < m)%N ->
    (forall g, (g < n)%N -> exists Y, R g *m B = B *m Y) -> m = d.
(** Multiplication with the complex number x + i y on pairs (Re, Im): the real matrix
    [[x, y], [-y, x]]. *)
Definition turn (d : nat) (c : C) : 'M[C]_(d + d) :=
  block_mx ('Re c)%:M ('Im c)%:M (- ('Im c)%:M) ('Re c)%:M.
(** The two complex conjugate representations side by side. *)
Definition with_conjugate (d : nat) (M : 'M[C]_d) : 'M[C]_(d + d) := block_mx M 0 0 (map_mx conjC M).
Definition orthogonal_mx (d : nat) (M : 'M[C]_d) : Prop := real_mx M /\ M *m M^T = 1%:M.
(** The representation of the space group generated by a small representation D at k, on the
    lattice translations t and the listed operations g: (1|t)(R_g|w_g) acts by
    exp(-2 pi i k.t) D g. *)
Definition bloch_rep (cexp : Q -> C) (k : vec) (d : nat) (D : nat -> 'M[C]_d) (t : vec) (g : nat) : 'M[C]_d :=
  cexp (Qopp (vdot k t)) *: D g.
(** The real representations D1 + conj(D1) and D2 + conj(D2) of these operations are the same
    up to equivalence. *)
Definition same_physical (n : nat) (cexp : Q -> C) (k : vec) (d1 d2 : nat) (D1 : nat -> 'M[C]_d1) (D2 : nat -> 'M[C]_d2) : Prop :=
  exists P P', [/\ P *m P' = 1%:M, P' *m P = 1%:M &
    forall t g, vint t -> (g < n)%N ->
      with_conjugate (bloch_rep cexp k D1 t g) *m P = P *m with_conjugate (bloch_rep cexp k D2 t g)].
End Spec.
