(** Magnetic groups, their action on spinors, and co-representations. *)
From Coq Require List.
From Coq Require Import QArith ZArith.
From mathcomp Require Import all_ssreflect all_algebra.
From Verif Require Import Py Mat3 GroupSpec RepSpec Mx2 SmallModel SpinorModel SpinorSpec.
Import Order.TTheory GRing.Theory Num.Theory.
Set Implicit Arguments.
Unset Strict Implicit.
Unset Printing Implicit Defensive.
Local Open Scope ring_scope.

(** mul i j is the position of the product of the i-th and j-th magnetic operation, e that of
    the identity. *)
Record mag_multiplication (ops : list (mat * bool)) (mul : nat -> nat -> nat) (e : nat) : Prop := {
  mm_lt : forall i j, (i < size ops)%N -> (j < size ops)%N -> (mul i j < size ops)%N;
  mm_mul : forall i j, (i < size ops)%N -> (j < size ops)%N ->
    List.nth (mul i j) ops (mid, false) = mag_mul (List.nth i ops (mid, false)) (List.nth j ops (mid, false));
  mm_e : (e < size ops)%N;
  mm_id : List.nth e ops (mid, false) = (mid, false) }.

(** An operation maps the Bloch states at k to those at R k, and at - R k with time reversal;
    it belongs to the little group when that is k modulo a reciprocal lattice vector. *)
Definition mag_fixes_kpoint (k : vec) (o : mat * bool) : Prop :=
  if o.2 then vint (vadd (mtvec o.1 k) k) else fixes_kpoint k o.1.

Section Spec.
Variable C : numClosedFieldType.
Definition conj_if (anti : bool) m n (A : 'M[C]_(m, n)) : 'M[C]_(m, n) := if anti then map_mx conjC A else A.

(** The operator psi |-> U psi, or U conj(psi) with time reversal, acts on spin as the proper
    part of r, and reverses it with time reversal. *)
Definition mag_spin_rotation (L : 'M[C]_3) (o : mat * bool) (U : 'M[C]_2) : Prop :=
  [/\ U *m adj U = 1%:M, \det U = 1 &
      forall R (v : 'cV[C]_3), is_cartesian L o.1 R -> real_mx v ->
        U *m conj_if o.2 (pauli v) *m adj U = (-1) ^+ o.2 *: pauli (zC C (mdet o.1) *: R *m v)].

Section Law.
Variables (n : nat) (mul : nat -> nat -> nat) (e : nat) (anti : nat -> bool) (mu : nat -> nat -> C).
(** The associativity of products of operators that are anti-linear where anti says so. *)
Definition mag_cocycle : Prop := forall i j k, (i < n)%N -> (j < n)%N -> (k < n)%N ->
  mu i (mul j k) * (if anti i then (mu j k)^* else mu j k) = mu (mul i j) k * mu i j.
(** The co-representation law, for one pair and for all. *)
Definition corep_at d (D : nat -> 'M[C]_d) (i j : nat) : Prop := D i *m conj_if (anti i) (D j) = mu i j *: D (mul i j).
Definition corep d (D : nat -> 'M[C]_d) : Prop :=
  D e = 1%:M /\ forall i j, (i < n)%N -> (j < n)%N -> corep_at D i j.
End Law.
End Spec.

(** The unitary half, and the three kinds of an irreducible representation D of it with respect
    to the anti-linear operation a. *)
Section Half.
Variables (C : numClosedFieldType) (n : nat) (mul : nat -> nat -> nat) (e : nat) (anti : nat -> bool) (mu : nat -> nat -> C).
Definition linear_op (i : nat) : bool := (i < n)%N && ~~ anti i.
Definition linear_rep d (D : nat -> 'M[C]_d) : Prop :=
  [/\ D e = 1%:M,
      forall i j, linear_op i -> linear_op j -> D i *m D j = mu i j *: D (mul i j) &
      forall i, linear_op i -> D i *m adj (D i) = 1%:M].
Definition linear_irreducible d (D : nat -> 'M[C]_d) : Prop :=
  (0 < d)%N /\ forall m (W : 'M[C]_(d, m)),
    (forall i, linear_op i -> exists Y, D i *m W = W *m Y) -> W = 0 \/ exists V, W *m V = 1%:M.
(** X turns the conjugated representation u |-> D(a^-1 u a)^* into D. *)
Definition conj_intertwiner (a d : nat) (D : nat -> 'M[C]_d) (X : 'M[C]_d) : Prop :=
  forall u c, linear_op u -> linear_op c -> mul a c = mul u a ->
    D u *m X = X *m ((mu u a / mu a c) *: map_mx conjC (D c)).
Definition corep_kind (a d : nat) (D : nat -> 'M[C]_d) (v : int) : Prop :=
  [\/ v = 1 /\ exists U, [/\ conj_intertwiner a D U, U *m adj U = 1%:M & U *m map_mx conjC U = mu a a *: D (mul a a)],
      v = -1 /\ exists U, [/\ conj_intertwiner a D U, U *m adj U = 1%:M & U *m map_mx conjC U = - (mu a a *: D (mul a a))] |
      v = 0 /\ forall X, conj_intertwiner a D X -> X = 0].
(** X and D are equivalent, and X and the conjugated representation of D are. *)
Definition linear_equivalent d1 d2 (X : nat -> 'M[C]_d1) (D : nat -> 'M[C]_d2) : Prop :=
  exists (T : 'M[C]_(d1, d2)) (T' : 'M[C]_(d2, d1)),
    [/\ T *m T' = 1%:M, T' *m T = 1%:M & forall u, linear_op u -> X u *m T = T *m D u].
Definition conj_equivalent (a : nat) d1 d2 (X : nat -> 'M[C]_d1) (D : nat -> 'M[C]_d2) : Prop :=
  exists (T : 'M[C]_(d1, d2)) (T' : 'M[C]_(d2, d1)),
    [/\ T *m T' = 1%:M, T' *m T = 1%:M & forall u c, linear_op u -> linear_op c -> mul a c = mul u a ->
      X u *m T = T *m ((mu u a / mu a c) *: map_mx conjC (D c))].
(** Co-representations: the column space of W is invariant when each F i, followed by the
    conjugation for an anti-linear i, maps it into itself; a change of basis T. *)
Definition corep_irreducible d (F : nat -> 'M[C]_d) : Prop :=
  (0 < d)%N /\ forall m (W : 'M[C]_(d, m)),
    (forall i, (i < n)%N -> exists Y, F i *m conj_if (anti i) W = W *m Y) -> W = 0 \/ exists V, W *m V = 1%:M.
Definition corep_equivalent d1 d2 (X : nat -> 'M[C]_d1) (F : nat -> 'M[C]_d2) : Prop :=
  exists (T : 'M[C]_(d1, d2)) (T' : 'M[C]_(d2, d1)),
    [/\ T *m T' = 1%:M, T' *m T = 1%:M & forall i, (i < n)%N -> X i *m conj_if (anti i) T = T *m F i].
End Half.

(** A is the direct sum of two equal blocks. *)
Definition double_block (C : numClosedFieldType) (m : nat) (A : 'M[C]_m) : Prop :=
  exists d (E : m = (d + d)%N) (X : 'M[C]_d), castmx (E, E) A = block_mx X 0 0 X.
